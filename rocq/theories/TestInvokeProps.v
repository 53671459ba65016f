(** Properties of the calls test cases give (C67). *)

From Coq Require Import ZArith String Ascii Bool Lia List Permutation.
From Verif Require Import Base FMap TypesModel ExtSetModel LoadModel SigModel FuncModel LitModel ExprModel ExprOpsModel ExprSpec ExprWireProofs ExprBuildProofs ExprProps TestCaseModel TestCaseProofs TestInvokeModel TestInvokeSpec.
Import ListNotations.
Local Open Scope string_scope.
Local Open Scope Z_scope.

Lemma cut_prefix_iff : forall p s r, cut_prefix p s = Some r <-> s = p ++ r.
Proof.
  induction p as [|c p IH]; intros s r; cbn.
  - split; [intros [= ->]|intros ->]; reflexivity.
  - destruct s as [|d s]; [split; discriminate|]. destruct (Ascii.eqb_spec c d) as [->|N].
    + rewrite IH. split; [intros ->; reflexivity|intros [= ->]; reflexivity].
    + split; [discriminate|]. intros [= E _]. congruence.
Qed.
Lemma app_str_nil : forall s, s ++ "" = s.
Proof. induction s as [|c s IH]; cbn; congruence. Qed.
Lemma app_own_end : forall q p, q ++ p = p -> q = "".
Proof.
  intros q p E. assert (L : String.length (q ++ p) = String.length p) by (rewrite E; reflexivity).
  assert (A : forall a b, String.length (a ++ b) = (String.length a + String.length b)%nat) by (induction a; intros; cbn; auto).
  rewrite A in L. destruct q; [reflexivity|cbn in L; lia].
Qed.
Lemma cut_suffix_iff : forall p s r, cut_suffix p s = Some r <-> s = r ++ p.
Proof.
  intros p. induction s as [|c s IH]; intros r.
  - cbn [cut_suffix]. destruct (String.eqb_spec "" p) as [<-|N].
    + split; [intros [= <-]; reflexivity|]. rewrite app_str_nil. intros <-. reflexivity.
    + split; [discriminate|]. destruct r; cbn; [intros; congruence|discriminate].
  - cbn [cut_suffix]. destruct (String.eqb_spec (String c s) p) as [<-|N].
    + split; [intros [= <-]; reflexivity|]. intros E. symmetry in E. apply app_own_end in E. subst. reflexivity.
    + destruct r as [|d r]; cbn [append].
      * split; [|intros; congruence]. destruct (cut_suffix p s) as [q|]; [discriminate|discriminate].
      * destruct (cut_suffix p s) as [q|] eqn:E.
        -- split; [intros [= <- <-]|intros [= <- H]]; [f_equal; apply IH; reflexivity|]. apply IH in H. congruence.
        -- split; [discriminate|]. intros [= <- H]. apply IH in H. congruence.
Qed.
Lemma trim_prefix_iff : forall p s r, trim_prefix p s = r <-> without_prefix p s r.
Proof.
  intros p s r. unfold trim_prefix, without_prefix. destruct (cut_prefix p s) as [q|] eqn:E.
  - apply cut_prefix_iff in E. split; [intros <-; auto|]. intros [H|[H _]]; [|destruct (H q E)].
    apply cut_prefix_iff in E, H. congruence.
  - assert (N : forall q, s <> p ++ q) by (intros q H; apply cut_prefix_iff in H; congruence).
    split; [intros <-; auto|]. intros [H|[_ H]]; [destruct (N r H)|auto].
Qed.
Lemma trim_suffix_iff : forall p s r, trim_suffix p s = r <-> without_suffix p s r.
Proof.
  intros p s r. unfold trim_suffix, without_suffix. destruct (cut_suffix p s) as [q|] eqn:E.
  - apply cut_suffix_iff in E. split; [intros <-; auto|]. intros [H|[H _]]; [|destruct (H q E)].
    apply cut_suffix_iff in E, H. congruence.
  - assert (N : forall q, s <> q ++ p) by (intros q H; apply cut_suffix_iff in H; congruence).
    split; [intros <-; auto|]. intros [H|[_ H]]; [destruct (N r H)|auto].
Qed.
Lemma case_urn_iff : forall s u, case_urn s = u <-> urn_of s u.
Proof.
  intros s u. unfold case_urn. destruct (is_path s) eqn:P.
  - assert (X : exists r, s = "/" ++ r).
    { destruct s as [|c s]; [discriminate|]. cbn in P. apply Ascii.eqb_eq in P. subst c. exists s. reflexivity. }
    split.
    + intros <-. econstructor; [exact X|apply trim_prefix_iff; reflexivity|apply trim_suffix_iff; reflexivity].
    + intros H. destruct H as [s N|s base m _ B M]; [destruct X as (r & X); destruct (N r X)|].
      apply trim_prefix_iff in B. apply trim_suffix_iff in M. rewrite B, M. reflexivity.
  - assert (N : forall r, s <> "/" ++ r) by (intros r ->; discriminate).
    split; [intros <-; constructor; exact N|]. intros H. destruct H as [s _|s base m (r & X) _ _]; [reflexivity|destruct (N r X)].
Qed.

Lemma mapM_iff' : forall {A B} (f : A -> res B) l r, mapM f l = Ok r <-> Forall2 (fun x y => f x = Ok y) l r.
Proof.
  intros A B f. induction l as [|x l IH]; intros r; cbn.
  - split; [intros [= <-]; constructor|]. intros F. inversion F. reflexivity.
  - split.
    + destruct (f x) as [y| |] eqn:E; cbn; try discriminate. destruct (mapM f l) as [ys| |] eqn:E2; cbn; try discriminate.
      intros [= <-]. constructor; [exact E|]. apply IH. reflexivity.
    + intros F. inversion F as [|? y ? ys E F']; subst. rewrite E. cbn. apply IH in F'. rewrite F'. reflexivity.
Qed.
Lemma mapM_no_err : forall {A B} (f : A -> res B) l, (forall x, f x <> Err) -> mapM f l <> Err.
Proof.
  intros A B f l N. induction l as [|x l IH]; cbn; [discriminate|]. pose proof (N x). destruct (f x); cbn; try congruence.
  destruct (mapM f l); cbn; congruence.
Qed.

Lemma shorts : forall ts, mapM short_of (map Some ts) = Ok (map short_string ts).
Proof. induction ts as [|t ts IH]; cbn; [reflexivity|]. rewrite IH. reflexivity. Qed.
Lemma shorts_inv : forall os ss, mapM short_of os = Ok ss -> exists ts, os = map Some ts /\ ss = map short_string ts.
Proof.
  induction os as [|o os IH]; intros ss; cbn.
  - intros [= <-]. exists []. auto.
  - destruct o as [t|]; cbn; [|discriminate]. destruct (mapM short_of os) as [ss'| |]; cbn; try discriminate.
    intros [= <-]. destruct (IH ss' eq_refl) as (ts & -> & ->). exists (t :: ts). auto.
Qed.
Lemma agg_types_iff : forall gs ts, mapM agg_type gs = Ok (map Some ts) <-> Forall2 agg_typed gs ts.
Proof.
  induction gs as [|g gs IH]; intros ts; cbn.
  - split; [|intros F; inversion F; reflexivity]. destruct ts; [constructor|discriminate].
  - assert (ONE : forall t, agg_type g = Ok (Some t) <-> agg_typed g t).
    { intros t. unfold agg_type. destruct (a_scalar g) eqn:S.
      - destruct (a_arg g) as [c|] eqn:A.
        + split; [intros [= <-]; constructor; auto|]. intros H. inversion H; subst; [congruence|congruence].
        + split; [discriminate|]. intros H. inversion H; subst; congruence.
      - split; [intros [= H]; apply Typed_column; auto|]. intros H. inversion H; subst; congruence. }
    split.
    + destruct (agg_type g) as [o| |] eqn:E; cbn; try discriminate. destruct (mapM agg_type gs) as [os| |] eqn:E2; cbn; try discriminate.
      destruct ts as [|t ts]; [discriminate|]. intros [= -> ->]. constructor; [apply ONE; reflexivity|]. apply IH. reflexivity.
    + intros F. inversion F as [|? t ? ts' H F']; subst. apply ONE in H. rewrite H. cbn. apply IH in F'. rewrite F'. reflexivity.
Qed.
Lemma arg_types_iff : forall k ts, get_arg_types k = Ok (map Some ts) <-> args_typed k ts.
Proof.
  intros k ts. unfold get_arg_types, args_typed. destruct (k_aggregate k).
  - rewrite agg_types_iff. split; [auto|]. intros [[H _]|[_ H]]; [discriminate|exact H].
  - split.
    + intros [= H]. left. split; [reflexivity|]. revert ts H. induction (k_args k) as [|c l IH]; intros [|t ts]; cbn; try discriminate; auto.
      intros [= -> H]. f_equal. apply IH, H.
    + intros [[_ ->]|[H _]]; [|discriminate]. rewrite map_map. reflexivity.
Qed.
Lemma case_id_iff : forall k id, case_id k = Ok id <-> exists ts, get_arg_types k = Ok (map Some ts) /\ tests k ts id.
Proof.
  intros k id. unfold case_id, case_signature. split.
  - intros H. apply bind_inv in H. destruct H as (s & H & [= <-]). apply bind_inv in H. destruct H as (os & E & H). apply bind_inv in H.
    destruct H as (ss & H & [= <-]). apply shorts_inv in H. destruct H as (ts & -> & ->). exists ts. split; [exact E|].
    apply arg_types_iff in E. split; [exact E|]. split; [apply case_urn_iff|]; reflexivity.
  - intros (ts & E & _ & U & N). rewrite E. cbn [bind]. rewrite shorts. cbn [bind]. apply case_urn_iff in U. rewrite U. destruct id as [u n]. cbn in *. rewrite N. reflexivity.
Qed.
Lemma case_id_no_err : forall k, case_id k <> Err.
Proof.
  intros k. unfold case_id, case_signature, get_arg_types.
  assert (A : (if k_aggregate k then mapM agg_type (k_aggargs k) else Ok (map (fun c => Some (c_type c)) (k_args k))) <> Err).
  { destruct (k_aggregate k); [|discriminate]. apply mapM_no_err. intros g. unfold agg_type. destruct (a_scalar g), (a_arg g); discriminate. }
  destruct (if k_aggregate k then _ else _) as [os| |]; cbn [bind]; try congruence.
  assert (B : mapM short_of os <> Err) by (apply mapM_no_err; intros [t|]; discriminate).
  destruct (mapM short_of os); cbn [bind]; congruence.
Qed.

Lemma map_some_inj : forall {A} (l r : list A), map Some l = map Some r -> l = r.
Proof. intros A. induction l as [|x l IH]; intros [|y r] H; try discriminate; [reflexivity|]. injection H as -> H. f_equal. apply IH, H. Qed.
Lemma mapM_panic : forall {A B} (f : A -> res B) l, mapM f l = Panic -> exists x, In x l /\ f x = Panic.
Proof.
  intros A B f. induction l as [|x l IH]; cbn; [discriminate|]. destruct (f x) eqn:E; cbn; [|discriminate|].
  - destruct (mapM f l); cbn; try discriminate. intros _. destruct (IH eq_refl) as (y & I & Y). eauto.
  - intros _. exists x. auto.
Qed.
Lemma case_id_panic : forall k, case_id k = Panic <-> k_aggregate k = true /\ exists g, In g (k_aggargs k) /\ forall t, ~ agg_typed g t.
Proof.
  intros k. split.
  - intros H. assert (T : forall ts, ~ args_typed k ts).
    { intros ts T. apply arg_types_iff in T. unfold case_id, case_signature in H. rewrite T in H. cbn [bind] in H. rewrite shorts in H. discriminate H. }
    unfold args_typed in T. destruct (k_aggregate k).
    2:{ exfalso. apply (T (map c_type (k_args k))). auto. }
    split; [reflexivity|]. assert (N : forall ts, ~ Forall2 agg_typed (k_aggargs k) ts) by (intros ts F; apply (T ts); auto).
    clear T H. induction (k_aggargs k) as [|g gs IH]; [destruct (N []); constructor|].
    assert (D : (exists t, agg_typed g t) \/ forall t, ~ agg_typed g t).
    { destruct (a_scalar g) eqn:S.
      - destruct (a_arg g) as [c|] eqn:A; [left; exists (c_type c); constructor; auto|right; intros t H; inversion H; subst; congruence].
      - destruct (a_type g) as [t|] eqn:A; [left; exists t; apply Typed_column; auto|right; intros t H; inversion H; subst; congruence]. }
    destruct D as [(t & D)|D]; [|exists g; split; [left; reflexivity|exact D]].
    destruct IH as (h & I & X); [|exists h; split; [right; exact I|exact X]]. intros ts F. apply (N (t :: ts)). constructor; auto.
  - intros (K & g & I & N). destruct (case_id k) as [id| |] eqn:E; [|destruct (case_id_no_err _ E)|reflexivity].
    exfalso. apply case_id_iff in E. destruct E as (ts & _ & [[X _]|[_ F]] & _); [congruence|].
    revert I N. clear - F. induction F as [|h t gs ts H _ IH]; intros I N; [destruct I|]. destruct I as [<-|I]; [exact (N t H)|exact (IH I N)].
Qed.

Lemma forall2_weaken : forall {A B} (P Q : A -> B -> Prop) l r, (forall x y, P x y -> Q x y) -> Forall2 P l r -> Forall2 Q l r.
Proof. intros A B P Q l r H F. induction F; constructor; auto. Qed.

Section Calls.
Context {R : Type}.
Variable rel_schema : R -> res (list xtype).
Variable resolve : variant -> list xtype -> eset -> res (ty * eset).
Variable fmatch : variant -> list (option ty) -> res bool.
Variable variadic_of : variant -> option variadic.

Lemma first_fit_iff : forall {T} (call : ext_id -> res T) urn ts fs r,
  first_fit fmatch call urn (map Some ts) fs = Ok r <-> exists f, first_of fmatch urn ts fs f /\ call (variant_id f) = Ok r.
Proof.
  intros T call urn ts. induction fs as [|f fs IH]; intros r; cbn [first_fit].
  - split; [discriminate|]. intros (f & (b & a & E & _) & _). destruct b; discriminate.
  - assert (NEXT : fmatch f (map Some ts) <> Panic -> ~ (fmatch f (map Some ts) = Ok true /\ v_urn f = urn) ->
      first_fit fmatch call urn (map Some ts) fs = Ok r <-> exists g, first_of fmatch urn ts (f :: fs) g /\ call (variant_id g) = Ok r).
    { intros NP NF. rewrite IH. split; intros (g & (b & a & E & M & U & B) & C).
      - exists g. split; [|exact C]. exists (f :: b), a. subst fs. do 3 (split; [auto|]). intros h [<-|I]; [split; assumption|apply B, I].
      - destruct b as [|f' b]; cbn in E; injection E as <- E; [destruct (NF (conj M U))|]. exists g. split; [|exact C]. exists b, a.
        do 3 (split; [auto|]). intros h I. apply B. right. exact I. }
    destruct (fmatch f (map Some ts)) as [[|]| |] eqn:M.
    + destruct (String.eqb_spec (v_urn f) urn) as [U|U]; [|apply NEXT; [discriminate|intros [_ X]; congruence]].
      split.
      * intros C. exists f. split; [|exact C]. exists [], fs. do 3 (split; [auto|]). intros g [].
      * intros (g & (b & a & E & M' & U' & B) & C). destruct b as [|f' b]; cbn in E; injection E as <- E; [exact C|].
        exfalso. apply (B f); [left; reflexivity|split; [exact M|exact U]].
    + apply NEXT; [discriminate|intros [X _]; discriminate].
    + apply NEXT; [discriminate|intros [X _]; discriminate].
    + split; [discriminate|]. intros (g & (b & a & E & M' & U' & B) & C). destruct b as [|f' b]; cbn in E; injection E as <- E; [congruence|].
      exfalso. destruct (B f (or_introl eq_refl)) as [X _]. congruence.
Qed.
Lemma first_fit_panics : forall {T} (call : ext_id -> res T) urn ts fs,
  first_fit fmatch call urn (map Some ts) fs = Panic <-> stopped_by fmatch urn ts fs (fun f => call (variant_id f) = Panic).
Proof.
  intros T call urn ts. induction fs as [|f fs IH]; cbn [first_fit].
  - split; [discriminate|]. intros (b & f & a & E & _). destruct b; discriminate.
  - assert (NEXT : fmatch f (map Some ts) <> Panic -> ~ (fmatch f (map Some ts) = Ok true /\ v_urn f = urn) ->
      first_fit fmatch call urn (map Some ts) fs = Panic <-> stopped_by fmatch urn ts (f :: fs) (fun f => call (variant_id f) = Panic)).
    { intros NP NF. rewrite IH. split.
      - intros (b & g & a & -> & B & D). exists (f :: b), g, a. split; [reflexivity|]. split; [|exact D].
        intros h [<-|H]; [split; assumption|apply B, H].
      - intros ([|h b] & g & a & E & B & D); injection E as -> ->.
        + exfalso. destruct D as [D|(D & U & _)]; [exact (NP D)|exact (NF (conj D U))].
        + exists b, g, a. split; [reflexivity|]. split; [|exact D]. intros x X. apply B. right. exact X. }
    destruct (fmatch f (map Some ts)) as [[]| |] eqn:M.
    + destruct (String.eqb_spec (v_urn f) urn) as [U|U].
      * split.
        -- intros C. exists [], f, fs. split; [reflexivity|]. split; [intros g []|]. right. auto.
        -- intros ([|h b] & g & a & E & B & D); injection E as -> ->.
           ++ destruct D as [D|(_ & _ & D)]; [congruence|exact D].
           ++ exfalso. destruct (B h (or_introl eq_refl)) as [_ X]. apply X. auto.
      * apply NEXT; [discriminate|]. intros [_ X]. exact (U X).
    + apply NEXT; [discriminate|]. intros [X _]. discriminate X.
    + apply NEXT; [discriminate|]. intros [X _]. discriminate X.
    + split; [intros _|reflexivity]. exists [], f, fs. split; [reflexivity|]. split; [intros g []|]. left. exact M.
Qed.
Lemma first_fit_panic : forall {T} (call : ext_id -> res T) urn ts fs, (forall f, fmatch f ts <> Panic) -> (forall id, call id <> Panic) ->
  first_fit fmatch call urn ts fs <> Panic.
Proof.
  intros T call urn ts fs M C. induction fs as [|f fs IH]; cbn [first_fit]; [discriminate|]. pose proof (M f).
  destruct (fmatch f ts) as [[|]| |]; try congruence. destruct (String.eqb (v_urn f) urn); auto.
Qed.

Lemma value_arg_iff : forall c a, @value_arg R c = a <-> passes c a.
Proof.
  intros c a. unfold value_arg. destruct (c_value c) as [l|s] eqn:E.
  - split; [intros <-; constructor; exact E|]. intros H. inversion H; subst; congruence.
  - split; [intros <-; constructor; exact E|]. intros H. inversion H; subst; congruence.
Qed.
Lemma value_args_iff : forall cs r, map (@value_arg R) cs = r <-> Forall2 passes cs r.
Proof.
  induction cs as [|c cs IH]; intros r; cbn.
  - split; [intros <-; constructor|]. intros F. inversion F. reflexivity.
  - split.
    + intros <-. constructor; [apply value_arg_iff; reflexivity|]. apply IH. reflexivity.
    + intros F. inversion F as [|? a ? r' H F']; subst. f_equal; [apply value_arg_iff, H|apply IH, F'].
Qed.
Lemma options_iff : forall os r, case_options os = r <-> Forall2 prefers os r.
Proof.
  induction os as [|o os IH]; intros r; cbn.
  - split; [intros <-; constructor|]. intros F. inversion F. reflexivity.
  - split.
    + intros <-. constructor; [reflexivity|]. apply IH. reflexivity.
    + intros F. inversion F as [|? a ? r' H F']; subst. f_equal; [symmetry; exact H|apply IH, F'].
Qed.

(** ** scalar functions *)

(** The function under test is named by the URN of the test file and by the name and argument types of the call. *)
Theorem C67_name : forall k id, case_id k = Ok id <-> exists ts, tests k ts id.
Proof.
  intros k id. rewrite case_id_iff. split; intros (ts & H); exists ts; [apply H|]. split; [|exact H]. apply arg_types_iff, H.
Qed.
Theorem C67_types : forall k ts, get_arg_types k = Ok (map Some ts) <-> args_typed k ts.
Proof. exact arg_types_iff. Qed.
Theorem C67_options : forall order opts, case_options order = opts <-> Forall2 prefers order opts.
Proof. exact options_iff. Qed.

(** The call of a scalar test case has the values of the case, in order, and its options.  It calls the function of exactly that name or,
    if that cannot be called, the first function of the URN with that name that takes so many arguments of those types. *)
Theorem C67_scalar : forall c reg k order order' s e s',
  scalar_invocation rel_schema resolve fmatch variadic_of c reg k order order' s = Ok (e, s') <->
  k_aggregate k = false /\
  exists ts id args opts opts', tests k ts id /\ Forall2 passes (k_args k) args /\ Forall2 prefers order opts /\ Forall2 prefers order' opts' /\
    let calls id opts e s' := exists v t a, call_resolves rel_schema short_string resolve (get_scalar c) id args s v t a s' /\ e = EScalar a v args opts t in
    (calls id opts e s' \/
     (new_scalar_func rel_schema short_string resolve c id opts args s = Err /\
      exists f, first_of fmatch (id_urn id) ts (scalar_functions variadic_of reg (k_name k) (Z.of_nat (List.length (k_args k)))) f /\
        calls (variant_id f) opts' e s')).
Proof.
  intros c reg k order order' s e s'. unfold scalar_invocation. destruct (k_aggregate k) eqn:K.
  { split; [discriminate|]. intros [H _]. discriminate. }
  set (args0 := map value_arg (k_args k)).
  assert (LEN : List.length args0 = List.length (k_args k)) by apply map_length. rewrite LEN. split.
  - intros H. split; [reflexivity|]. apply bind_inv in H. destruct H as (id & HI & H).
    apply case_id_iff in HI. destruct HI as (ts & G & TS). rewrite G in H. cbn [bind] in H.
    exists ts, id, args0, (case_options order), (case_options order'). split; [exact TS|]. split; [apply value_args_iff; reflexivity|].
    split; [apply options_iff; reflexivity|]. split; [apply options_iff; reflexivity|]. cbv zeta. unfold or_else in H.
    destruct (new_scalar_func rel_schema short_string resolve c id (case_options order) args0 s) as [[e0 s0]| |] eqn:E; [| |discriminate].
    + left. injection H as <- <-. apply C47_scalar. exact E.
    + right. split; [reflexivity|]. apply first_fit_iff in H. destruct H as (f & F & C). exists f. split; [exact F|]. apply C47_scalar. exact C.
  - intros (_ & ts & id & args & opts & opts' & TS & A & O & O' & H). apply value_args_iff in A. fold args0 in A. subst args. apply options_iff in O, O'. subst opts opts'.
    assert (G : get_arg_types k = Ok (map Some ts)) by (apply arg_types_iff; apply TS).
    assert (HI : case_id k = Ok id) by (apply case_id_iff; eauto). rewrite HI. cbn [bind]. rewrite G. cbn [bind]. cbv zeta in H. unfold or_else.
    destruct H as [H|(E & f & F & H)]; apply C47_scalar in H.
    + rewrite H. reflexivity.
    + rewrite E. apply first_fit_iff. exists f. split; [exact F|]. exact H.
Qed.

(** ** aggregate functions *)

Lemma schema_nth : forall gs i, nth_error (agg_schema gs) i = option_map (fun g => if a_scalar g then XNil else match a_type g with Some t => XTy t | None => XNil end) (nth_error gs i).
Proof. intros gs i. unfold agg_schema. apply nth_error_map. Qed.

Lemma column_iff : forall cols i t, (exists x, record_type cols x /\ follows x [SField i] t) <-> 0 <= i /\ nth_error cols (Z.to_nat i) = Some t.
Proof.
  intros cols i t. split.
  - intros (x & S & F). inversion F as [|? ? y ? ? C F']; subst. inversion F'; subst. inversion S; subst.
    + inversion C; subst. split; [assumption|]. rewrite nth_error_map. match goal with H : nth_error _ _ = Some _ |- _ => rewrite H end. reflexivity.
    + inversion C; subst. split; assumption.
  - intros [P N]. destruct (all_typed cols) as [ts|] eqn:A.
    + exists (XTy (TStruct 2 0 ts)). assert (E : cols = map XTy ts).
      { clear N. revert ts A. unfold all_typed. induction cols as [|[|u| | | |] cols IH]; cbn; intros ts A; try discriminate; [injection A as <-; reflexivity|].
        destruct (fold_right _ _ cols) as [ts'|]; [|discriminate]. injection A as <-. cbn. f_equal. apply IH. reflexivity. }
      subst cols. split; [constructor|]. rewrite nth_error_map in N. destruct (nth_error ts (Z.to_nat i)) as [u|] eqn:N'; [|discriminate]. injection N as <-.
      econstructor; [constructor; eassumption|constructor].
    + exists (XStruct 2 0 cols). split.
      * constructor. intros ts ->. clear N. induction ts as [|u ts IH]; cbn in A; [discriminate|]. unfold all_typed in IH. destruct (fold_right _ _ (map XTy ts)); [discriminate|]. apply IH. reflexivity.
      * econstructor; [apply Comp_field_x; eassumption|constructor].
Qed.
Lemma agg_arg_iff : forall gs ts g a, Forall2 agg_typed gs ts -> agg_call_arg rel_schema (agg_schema gs) g = Ok a <-> passes_agg gs g a.
Proof.
  intros gs ts g a TS. unfold agg_call_arg. destruct (a_scalar g) eqn:S.
  - destruct (a_arg g) as [c|] eqn:A.
    + split.
      * intros [= H]. apply value_arg_iff in H. eapply Passes_constant; eauto.
      * intros H. inversion H as [? c' ? ? A' P|]; subst; [|congruence]. apply value_arg_iff in P. congruence.
    + split; [discriminate|]. intros H. inversion H; subst; congruence.
  - assert (HK : Forall key_plain [SField (a_index g)]) by (constructor; [exact I|constructor]).
    pose proof (C16_new_field_ref R rel_schema (Some (agg_schema gs)) RRoot [SField (a_index g)]) as NR. split.
    + intros H. apply bind_inv in H. destruct H as (r & H & [= <-]). apply (NR r HK) in H. destruct H as (x & _ & -> & [(_ & cols & y & [= <-] & RT & F)|(? & ? & ? & _)]); [|discriminate].
      assert (X : 0 <= a_index g /\ nth_error (agg_schema gs) (Z.to_nat (a_index g)) = Some x) by (apply column_iff; eauto). destruct X as [X1 X2].
      rewrite schema_nth in X2. destruct (nth_error gs (Z.to_nat (a_index g))) as [h|] eqn:NH; [|discriminate]. cbn in X2. injection X2 as X2. eapply Passes_column; eauto.
      * intros t SH TH. rewrite SH, TH in X2. auto.
      * intros SH. rewrite SH in X2. auto.
    + intros H. inversion H as [|? h x S' P NH X1 X2]; subst; [congruence|].
      assert (X : nth_error (agg_schema gs) (Z.to_nat (a_index g)) = Some x).
      { rewrite schema_nth, NH. cbn. f_equal. destruct (a_scalar h) eqn:SH; [symmetry; auto|].
        assert (TH : exists t, agg_typed h t).
        { clear - TS NH. revert NH. generalize (Z.to_nat (a_index g)). induction TS as [|g0 t gs ts H _ IH]; intros [|n] NH; try discriminate; cbn in NH; [injection NH as <-; eauto|eauto]. }
        destruct TH as (t & TH). inversion TH; subst; [congruence|]. match goal with HH : a_type h = Some _ |- _ => rewrite HH; symmetry; auto end. }
      assert (Y : exists y, record_type (agg_schema gs) y /\ follows y [SField (a_index g)] x) by (apply column_iff; auto). destruct Y as (y & RT & F).
      assert (Q : new_field_ref rel_schema RRoot (RefSeg [SField (a_index g)]) (Some (agg_schema gs)) = Ok (ERef RRoot (RefSeg [SField (a_index g)]) x)).
      { apply NR; [exact HK|]. exists x. split; [discriminate|]. split; [reflexivity|]. left. split; [reflexivity|]. exists (agg_schema gs), y. auto. }
      rewrite Q. reflexivity.
Qed.
Lemma agg_args_iff : forall gs ts l r, Forall2 agg_typed gs ts -> mapM (agg_call_arg rel_schema (agg_schema gs)) l = Ok r <-> Forall2 (passes_agg gs) l r.
Proof.
  intros gs ts l r TS. rewrite mapM_iff'. revert r. induction l as [|g l IH]; intros r.
  - split; intros F; inversion F; constructor.
  - split; intros F; inversion F as [|? a ? r' H F']; subst; constructor; try (apply IH; assumption); eapply agg_arg_iff; eauto.
Qed.

(** The call of an aggregate test case has the constants of the case and references to its columns, in order, and its options.  It is over all
    values, from the initial phase to the result, without sorting. *)
Theorem C67_aggregate : forall c reg k order order' s e s',
  aggregate_invocation rel_schema resolve fmatch variadic_of c reg k order order' s = Ok (e, s') <->
  k_aggregate k = true /\
  exists ts id args opts opts', tests k ts id /\ Forall2 (passes_agg (k_aggargs k)) (k_aggargs k) args /\ Forall2 prefers order opts /\ Forall2 prefers order' opts' /\
    let calls id opts e s' := exists v t a, call_resolves rel_schema short_string resolve (get_agg c) id args s v t a s' /\ e = AggF a (Some v) args opts t 3 1 [] in
    (calls id opts e s' \/
     (new_aggregate_func rel_schema short_string resolve c id opts 1 3 [] args s = Err /\
      exists f, first_of fmatch (id_urn id) ts (agg_functions variadic_of reg (k_name k) (Z.of_nat (List.length (k_aggargs k)))) f /\
        calls (variant_id f) opts' e s')).
Proof.
  intros c reg k order order' s e s'. unfold aggregate_invocation. destruct (k_aggregate k) eqn:K; cbn [negb].
  2:{ split; [discriminate|]. intros [H _]. discriminate. }
  assert (AT : forall ts, args_typed k ts -> Forall2 agg_typed (k_aggargs k) ts) by (intros ts [[H _]|[_ H]]; [congruence|exact H]).
  assert (LEN : forall gs l (args : list (farg (expr R))), Forall2 (passes_agg gs) l args -> List.length args = List.length l) by (intros gs l args F; induction F; cbn; congruence).
  split.
  - intros H. split; [reflexivity|]. apply bind_inv in H. destruct H as (id & HI & H).
    apply case_id_iff in HI. destruct HI as (ts & G & TS). apply bind_inv in H. destruct H as (args & HA & H). rewrite G in H. cbn [bind] in H.
    apply (agg_args_iff _ ts) in HA; [|apply AT, TS]. pose proof (LEN _ _ _ HA) as LN. rewrite LN in H.
    exists ts, id, args, (case_options order), (case_options order'). split; [exact TS|]. split; [exact HA|].
    split; [apply options_iff; reflexivity|]. split; [apply options_iff; reflexivity|]. cbv zeta. unfold or_else in H.
    destruct (new_aggregate_func rel_schema short_string resolve c id (case_options order) 1 3 [] args s) as [[e0 s0]| |] eqn:E; [| |discriminate].
    + left. injection H as <- <-. apply C47_aggregate. exact E.
    + right. split; [reflexivity|]. apply first_fit_iff in H. destruct H as (f & F & C). exists f. split; [exact F|]. apply C47_aggregate. exact C.
  - intros (_ & ts & id & args & opts & opts' & TS & A & O & O' & H). pose proof (LEN _ _ _ A) as LN. apply (agg_args_iff _ ts) in A; [|apply AT, TS]. apply options_iff in O, O'. subst opts opts'.
    assert (G : get_arg_types k = Ok (map Some ts)) by (apply arg_types_iff; apply TS).
    assert (HI : case_id k = Ok id) by (apply case_id_iff; eauto). rewrite HI. cbn [bind]. rewrite A. cbn [bind]. rewrite G, LN. cbn [bind]. cbv zeta in H. unfold or_else.
    destruct H as [H|(E & f & F & H)]; apply C47_aggregate in H.
    + rewrite H. reflexivity.
    + rewrite E. apply first_fit_iff. exists f. split; [exact F|]. exact H.
Qed.

(** a column that is named by the argument at its own position has the type of that argument *)
Theorem C67_column_type : forall gs n g t (a : farg (expr R)), nth_error gs n = Some g -> a_scalar g = false -> a_type g = Some t -> a_index g = Z.of_nat n ->
  passes_agg gs g a <-> a = AExpr (ERef RRoot (RefSeg [SField (Z.of_nat n)]) (XTy t)).
Proof.
  intros gs n g t a N S T I. split.
  - intros H. inversion H as [|? h x S' P NH X1 X2]; subst; [congruence|]. rewrite I, Nat2Z.id in NH. assert (h = g) by congruence. subst h. rewrite I, (X1 t S T). reflexivity.
  - intros ->. rewrite <- I. eapply Passes_column; [exact S|lia|rewrite I, Nat2Z.id; exact N| |congruence]. congruence.
Qed.
(** the options of a call are those of the case, in the order of the iteration *)
Theorem C67_options_kept : forall (options : fmap string string) order opts, Permutation order options -> Forall2 prefers order opts ->
  exists opts0, Forall2 prefers options opts0 /\ Permutation opts opts0.
Proof.
  intros options order opts P F. apply options_iff in F. subst opts. exists (case_options options). split; [apply options_iff; reflexivity|]. apply Permutation_map, P.
Qed.

(** A scalar test case gives no call exactly if it is one of an aggregate function, or neither the function of its very name nor the first that fits can be called. *)
Theorem C67_scalar_refused : forall c reg k order order' s id,
  (forall f ts, fmatch f ts <> Panic) -> (forall id opts args, new_scalar_func rel_schema short_string resolve c id opts args s <> Panic) ->
  case_id k = Ok id ->
  scalar_invocation rel_schema resolve fmatch variadic_of c reg k order order' s <> Panic /\
  (scalar_invocation rel_schema resolve fmatch variadic_of c reg k order order' s = Err <->
   k_aggregate k = true \/
   forall args opts opts', Forall2 passes (k_args k) args -> Forall2 prefers order opts -> Forall2 prefers order' opts' ->
     new_scalar_func rel_schema short_string resolve c id opts args s = Err /\
     forall ts f, args_typed k ts -> first_of fmatch (id_urn id) ts (scalar_functions variadic_of reg (k_name k) (Z.of_nat (List.length (k_args k)))) f ->
       new_scalar_func rel_schema short_string resolve c (variant_id f) opts' args s = Err).
Proof.
  intros c reg k order order' s id FM NP HI. unfold scalar_invocation. destruct (k_aggregate k) eqn:K.
  { split; [discriminate|]. split; auto. }
  rewrite HI. cbn [bind]. set (args0 := map value_arg (k_args k)).
  assert (LEN : List.length args0 = List.length (k_args k)) by apply map_length. rewrite LEN.
  apply case_id_iff in HI. destruct HI as (ts & G & TS). rewrite G. cbn [bind]. unfold or_else.
  set (fs := scalar_functions variadic_of reg (k_name k) (Z.of_nat (List.length (k_args k)))).
  pose proof (NP id (case_options order) args0) as NP0.
  set (call := fun id => new_scalar_func rel_schema short_string resolve c id (case_options order') args0 s).
  assert (FP : first_fit fmatch call (id_urn id) (map Some ts) fs <> Panic) by (apply first_fit_panic; [intros f; apply FM|intros i; apply NP]).
  assert (FF := @first_fit_iff _ call (id_urn id) ts fs). cbv beta.
  destruct (new_scalar_func rel_schema short_string resolve c id (case_options order) args0 s) as [r| |] eqn:E; [| |congruence].
  - split; [discriminate|]. split; [discriminate|]. intros [H|H]; [discriminate|]. exfalso.
    destruct (H args0 (case_options order) (case_options order')) as [X _]; [apply value_args_iff; reflexivity|apply options_iff; reflexivity..|]. congruence.
  - split; [exact FP|]. split.
    + intros H. right. intros args opts opts' A O O'. apply value_args_iff in A. fold args0 in A. subst args. apply options_iff in O, O'. subst opts opts'. split; [exact E|].
      intros ts' f T' F. assert (ts' = ts).
      { apply arg_types_iff in T'. rewrite G in T'. injection T' as T'. clear - T'. revert ts' T'. induction ts as [|t ts IH]; intros [|t' ts'] H; try discriminate; auto. injection H as -> H. f_equal. apply IH, H. }
      subst ts'. pose proof (NP (variant_id f) (case_options order') args0) as Q. destruct (new_scalar_func _ _ _ c (variant_id f) _ _ _) as [r| |] eqn:E2; [|reflexivity|congruence].
      assert (X : first_fit fmatch call (id_urn id) (map Some ts) fs = Ok r) by (apply FF; exists f; split; [exact F|exact E2]). pose proof (eq_trans (eq_sym X) H) as Y. discriminate Y.
    + intros [H|H]; [discriminate|]. destruct (first_fit fmatch call (id_urn id) (map Some ts) fs) as [r| |] eqn:E2; [|reflexivity|congruence].
      exfalso. destruct (proj1 (FF r) eq_refl) as (f & F & C). destruct (H args0 (case_options order) (case_options order')) as [_ X]; [apply value_args_iff; reflexivity|apply options_iff; reflexivity..|].
      specialize (X ts f (proj1 TS) F). unfold call in C. congruence.
Qed.

(** A test case of the other kind is refused with an error, whatever its arguments. *)
Theorem C67_other_kind : forall c reg k order order' s,
  (k_aggregate k = true -> scalar_invocation rel_schema resolve fmatch variadic_of c reg k order order' s = Err) /\
  (k_aggregate k = false -> aggregate_invocation rel_schema resolve fmatch variadic_of c reg k order order' s = Err).
Proof. intros c reg k order order' s. unfold scalar_invocation, aggregate_invocation. split; intros ->; reflexivity. Qed.

(** Asking for the call of a scalar test case panics exactly if making the call of the function of its very name does or, that one being refused, matching
    the declarations one after the other does, or making the call of the first that fits. *)
Theorem C67_scalar_panics : forall c reg k order order' s,
  scalar_invocation rel_schema resolve fmatch variadic_of c reg k order order' s = Panic <->
  k_aggregate k = false /\
  exists ts id args opts opts', tests k ts id /\ Forall2 passes (k_args k) args /\ Forall2 prefers order opts /\ Forall2 prefers order' opts' /\
    (new_scalar_func rel_schema short_string resolve c id opts args s = Panic \/
     (new_scalar_func rel_schema short_string resolve c id opts args s = Err /\
      stopped_by fmatch (id_urn id) ts (scalar_functions variadic_of reg (k_name k) (Z.of_nat (List.length (k_args k))))
        (fun f => new_scalar_func rel_schema short_string resolve c (variant_id f) opts' args s = Panic))).
Proof.
  intros c reg k order order' s. unfold scalar_invocation. destruct (k_aggregate k) eqn:K.
  { split; [discriminate|]. intros [H _]. discriminate. }
  destruct (case_id k) as [id| |] eqn:HI; cbn [bind].
  - pose proof HI as HI'. apply case_id_iff in HI. destruct HI as (ts & G & TS). rewrite G. cbn [bind]. rewrite map_length. unfold or_else. split.
    + intros H. split; [reflexivity|]. exists ts, id, (map value_arg (k_args k)), (case_options order), (case_options order').
      split; [exact TS|]. split; [apply value_args_iff; reflexivity|]. split; [apply options_iff; reflexivity|]. split; [apply options_iff; reflexivity|].
      destruct (new_scalar_func _ _ _ c id _ _ _) eqn:E; [discriminate| |left; reflexivity]. right. split; [reflexivity|]. apply first_fit_panics in H. exact H.
    + intros (_ & ts' & id' & args & opts & opts' & T' & A & O & O' & H). apply value_args_iff in A. apply options_iff in O, O'. subst args opts opts'.
      assert (ts' = ts).
      { destruct T' as [T' _]. apply arg_types_iff in T'. rewrite G in T'. injection T' as T'. symmetry. revert T'. apply map_some_inj. }
      subst ts'. assert (id' = id).
      { assert (X : case_id k = Ok id') by (apply case_id_iff; exists ts; auto). congruence. }
      subst id'. destruct H as [->|[-> H]]; [reflexivity|]. apply first_fit_panics. exact H.
  - exfalso. exact (case_id_no_err _ HI).
  - exfalso. apply case_id_panic in HI. destruct HI as [X _]. congruence.
Qed.

(** For an aggregate test case likewise; it panics as well if an argument has no type. *)
Theorem C67_aggregate_panics : forall c reg k order order' s,
  aggregate_invocation rel_schema resolve fmatch variadic_of c reg k order order' s = Panic <->
  k_aggregate k = true /\
  ((exists g, In g (k_aggargs k) /\ forall t, ~ agg_typed g t) \/
   exists ts id args opts opts', tests k ts id /\ Forall2 (passes_agg (k_aggargs k)) (k_aggargs k) args /\ Forall2 prefers order opts /\ Forall2 prefers order' opts' /\
    (new_aggregate_func rel_schema short_string resolve c id opts 1 3 [] args s = Panic \/
     (new_aggregate_func rel_schema short_string resolve c id opts 1 3 [] args s = Err /\
      stopped_by fmatch (id_urn id) ts (agg_functions variadic_of reg (k_name k) (Z.of_nat (List.length (k_aggargs k))))
        (fun f => new_aggregate_func rel_schema short_string resolve c (variant_id f) opts' 1 3 [] args s = Panic)))).
Proof.
  intros c reg k order order' s. unfold aggregate_invocation. destruct (k_aggregate k) eqn:K; cbn [negb].
  2:{ split; [discriminate|]. intros [H _]. discriminate. }
  destruct (case_id k) as [id| |] eqn:HI; cbn [bind].
  - pose proof HI as HI'. apply case_id_iff in HI. destruct HI as (ts & G & TS). rewrite G.
    assert (F : Forall2 agg_typed (k_aggargs k) ts) by (destruct TS as [[[X _]|[_ X]] _]; [congruence|exact X]).
    destruct (mapM (agg_call_arg rel_schema (agg_schema (k_aggargs k))) (k_aggargs k)) as [args| |] eqn:AR; cbn [bind].
    + apply (agg_args_iff _ ts) in AR; [|exact F]. assert (LEN : List.length (k_aggargs k) = List.length args) by (clear - AR; induction AR; cbn; congruence).
      rewrite <- LEN. unfold or_else. split.
      * intros H. split; [reflexivity|]. right. exists ts, id, args, (case_options order), (case_options order').
        split; [exact TS|]. split; [exact AR|]. split; [apply options_iff; reflexivity|]. split; [apply options_iff; reflexivity|].
        destruct (new_aggregate_func _ _ _ c id _ _ _ _ _ _) eqn:E; [discriminate| |left; reflexivity]. right. split; [reflexivity|]. apply first_fit_panics in H. exact H.
      * intros (_ & [(g & I & N)|(ts' & id' & args' & opts & opts' & T' & A & O & O' & H)]).
        { exfalso. assert (X : case_id k = Panic) by (apply case_id_panic; eauto). congruence. }
        apply options_iff in O, O'. subst opts opts'.
        assert (args' = args) by (apply (agg_args_iff _ ts) in A; [|exact F]; apply (agg_args_iff _ ts) in AR; [|exact F]; congruence). subst args'.
        assert (ts' = ts) by (destruct T' as [T' _]; apply arg_types_iff in T'; rewrite G in T'; injection T' as T'; symmetry; revert T'; apply map_some_inj).
        subst ts'. assert (id' = id) by (assert (X : case_id k = Ok id') by (apply case_id_iff; exists ts; auto); congruence).
        subst id'. destruct H as [->|[-> H]]; [reflexivity|]. apply first_fit_panics. exact H.
    + split; [discriminate|]. intros (_ & [(g & I & N)|(ts' & id' & args' & opts & opts' & T' & A & _)]).
      * exfalso. assert (X : case_id k = Panic) by (apply case_id_panic; eauto). congruence.
      * apply (agg_args_iff _ ts) in A; [congruence|exact F].
    + exfalso. apply mapM_panic in AR. destruct AR as (g & I & P). assert (T : exists t, agg_typed g t).
      { clear - F I. induction F as [|h t gs ts H _ IH]; [destruct I|]. destruct I as [<-|I]; eauto. }
      destruct T as (t & T). unfold agg_call_arg in P. inversion T as [? x S A|? x S A]; subst; rewrite S in P.
      * rewrite A in P. discriminate P.
      * revert P. unfold new_field_ref, x_struct. generalize (agg_schema (k_aggargs k)) as l. intros l. cbn [seg_type].
        destruct (all_typed l) as [l'|]; cbn [expose]; match goal with |- context [if ?b then _ else _] => destruct b eqn:B; [discriminate|] end;
        apply Bool.orb_false_iff in B; destruct B as [B1 B2];
        match goal with |- context [nth_error ?l ?n] => destruct (nth_error l n) eqn:NE; [discriminate|]; apply nth_error_None in NE end; intros _; lia.
  - exfalso. exact (case_id_no_err _ HI).
  - split; [|reflexivity]. intros _. apply case_id_panic in HI. destruct HI as [_ HI]. auto.
Qed.
End Calls.

(** ** the data *)

(** The data of an aggregate test case are its columns or, if it has none, the values of its arguments. *)
Theorem C67_data : forall k cols, columns_data k = Ok cols <->
  k_aggregate k = true /\
  ((k_columns k <> [] /\ cols = k_columns k) \/
   (k_columns k = [] /\ Forall2 (fun g vs => exists c t, a_arg g = Some c /\ c_value c = CLit (LList vs t)) (k_aggargs k) cols)).
Proof.
  intros k cols. unfold columns_data. destruct (k_aggregate k); cbn [negb].
  2:{ split; [discriminate|]. intros [H _]. discriminate. }
  destruct (k_columns k) as [|col cs].
  - rewrite mapM_iff'. assert (ONE : forall g vs, match a_arg g with None => Panic | Some c => match c_value c with CLit (LList vs _) => Ok vs | _ => Err end end = Ok vs <->
      exists c t, a_arg g = Some c /\ c_value c = CLit (LList vs t)).
    { intros g vs. split.
      - destruct (a_arg g) as [c|]; [|discriminate]. destruct (c_value c) as [[]|] eqn:E; try discriminate. intros [= <-]. eauto.
      - intros (c & t & -> & ->). reflexivity. }
    split.
    + intros F. split; [reflexivity|]. right. split; [reflexivity|]. eapply forall2_weaken; [|exact F]. intros g vs. apply ONE.
    + intros (_ & [[H _]|[_ F]]); [congruence|]. eapply forall2_weaken; [|exact F]. intros g vs. apply ONE.
  - split.
    + intros [= <-]. split; [reflexivity|]. left. split; [discriminate|reflexivity].
    + intros (_ & [[_ ->]|[H _]]); [reflexivity|discriminate].
Qed.
(** other test cases have none, and a case without a value for an argument makes the program stop *)
Theorem C67_no_data : forall k,
  (k_aggregate k = false -> columns_data k = Err) /\
  ((forall g, In g (k_aggargs k) -> a_arg g <> None) -> columns_data k <> Panic).
Proof.
  intros k. unfold columns_data. split; [intros ->; reflexivity|]. intros H. destruct (negb (k_aggregate k)); [discriminate|].
  destruct (k_columns k); [|discriminate]. induction (k_aggargs k) as [|g gs IH]; cbn; [discriminate|].
  pose proof (H g (or_introl eq_refl)) as A. destruct (a_arg g) as [c|]; [|congruence].
  assert (IH' := IH (fun x I => H x (or_intror I))). destruct (c_value c) as [[]|]; cbn; try discriminate. destruct (mapM _ gs); cbn; congruence.
Qed.
(** It does so exactly if the argument without a value is not preceded by one whose value is no list, which is an error. *)
Theorem C67_data_panics : forall k, columns_data k = Panic <->
  k_aggregate k = true /\ k_columns k = [] /\ exists before g after, k_aggargs k = (before ++ g :: after)%list /\ a_arg g = None /\
    forall h, In h before -> exists c vs t, a_arg h = Some c /\ c_value c = CLit (LList vs t).
Proof.
  intros k. unfold columns_data. destruct (k_aggregate k); cbn [negb].
  2:{ split; [discriminate|]. intros [H _]. discriminate. }
  destruct (k_columns k) as [|col cs].
  2:{ split; [discriminate|]. intros (_ & H & _). discriminate. }
  transitivity (exists before g after, k_aggargs k = (before ++ g :: after)%list /\ a_arg g = None /\
    forall h, In h before -> exists c vs t, a_arg h = Some c /\ c_value c = CLit (LList vs t)).
  2:{ split; [auto|]. intros (_ & _ & H). exact H. }
  induction (k_aggargs k) as [|g gs IH]; cbn [mapM].
  { split; [discriminate|]. intros ([|] & ? & ? & H & _); discriminate H. }
  destruct (a_arg g) as [c|] eqn:A.
  2:{ split; [|reflexivity]. intros _. exists [], g, gs. split; [reflexivity|]. split; [exact A|intros h []]. }
  destruct (c_value c) as [[]|] eqn:V;
    try (split; [discriminate|]; intros ([|h b] & x & y & E & N & B); injection E as <- ->; [congruence|];
         destruct (B g (or_introl eq_refl)) as (c' & vs' & t' & A' & V'); congruence).
  match type of V with c_value c = CLit (LList ?v ?t) => rename v into vs; rename t into lt end.
  transitivity (mapM (fun g => match a_arg g with None => Panic | Some c => match c_value c with CLit (LList vs _) => Ok vs | _ => Err end end) gs = Panic).
  { destruct (mapM _ gs); split; congruence. }
  rewrite IH. split.
  - intros (b & x & y & -> & N & B). exists (g :: b), x, y. split; [reflexivity|]. split; [exact N|]. intros h [<-|H]; [eauto 8|apply B, H].
  - intros ([|h b] & x & y & E & N & B); injection E as <- ->; [congruence|]. exists b, x, y. split; [reflexivity|]. split; [exact N|]. intros z Z0. apply B. right. exact Z0.
Qed.

(** ** findings *)

Definition ti8 : ty := TPrim PrimI8 2 0.
Definition tstr : ty := TPrim PrimString 2 0.
Definition column_arg (i : Z) (name : string) (t : ty) : aggarg := {| a_arg := None; a_table := ""; a_column := name; a_type := Some t; a_index := i; a_scalar := false |}.
Definition agg_case (name : string) (gs : list aggarg) (cols : list (list lit)) (ts : list (option ty)) : tcase :=
  Tcase "extension:x" "" name [] gs OError [] cols "" ts true.

(** A case that uses only the second column is read, but it gives no call, whatever functions there are. *)
Theorem C67_second_column_refuted : forall pf f32, exists cols ts,
  TestCaseModel.read_call pf f32 (CCompact [[Tlit KNum "1"; Tlit KStr "'a'"]] "max" (Some [AAColumn "col1" (DPrim PrimString false)])) = Ok ("max", [column_arg 1 "col1" tstr], cols, "", ts) /\
  forall (R : Type) rel_schema resolve fmatch vo c reg o o' s,
    @aggregate_invocation R rel_schema resolve fmatch vo c reg (agg_case "max" [column_arg 1 "col1" tstr] cols ts) o o' s = Err.
Proof. intros pf f32. do 2 eexists. split; [vm_compute; reflexivity|]. intros. reflexivity. Qed.
(** In a case that uses its columns in another order the references have the types of each other's columns. *)
Theorem C67_column_order_refuted : forall pf f32, exists cols,
  TestCaseModel.read_call pf f32 (CCompact [[Tlit KNum "1"; Tlit KStr "'a'"]] "f" (Some [AAColumn "col1" (DPrim PrimString false); AAColumn "col0" (DPrim PrimI8 false)])) =
    Ok ("f", [column_arg 1 "col1" tstr; column_arg 0 "col0" ti8], cols, "", [Some ti8; Some tstr]) /\
  forall (R : Type) args, Forall2 (@passes_agg R [column_arg 1 "col1" tstr; column_arg 0 "col0" ti8]) [column_arg 1 "col1" tstr; column_arg 0 "col0" ti8] args ->
    args = [AExpr (ERef RRoot (RefSeg [SField 1]) (XTy ti8)); AExpr (ERef RRoot (RefSeg [SField 0]) (XTy tstr))].
Proof.
  intros pf f32. eexists. split; [vm_compute; reflexivity|]. intros R args F.
  inversion F as [|? a1 ? r1 H1 F1]; subst. inversion F1 as [|? a2 ? r2 H2 F2]; subst. inversion F2; subst.
  inversion H1 as [|? h1 x1 _ _ N1 X1 _]; subst; [discriminate|]. inversion H2 as [|? h2 x2 _ _ N2 X2 _]; subst; [discriminate|].
  cbn in N1, N2. injection N1 as <-. injection N2 as <-. rewrite (X1 ti8 eq_refl eq_refl), (X2 tstr eq_refl eq_refl). reflexivity.
Qed.
(** The references of a call on a table with a constant before the column do not have its type either: it is not known. *)
Theorem C67_after_constant_refuted : forall (R : Type) v a,
  let gs := [{| a_arg := Some v; a_table := ""; a_column := ""; a_type := None; a_index := 0; a_scalar := true |}; column_arg 0 "col0" ti8] in
  @passes_agg R gs (column_arg 0 "col0" ti8) a -> a = AExpr (ERef RRoot (RefSeg [SField 0]) XNil).
Proof. intros R v a gs H. inversion H as [|? h x _ _ N _ X]; subst; [discriminate|]. cbn in N. injection N as <-. rewrite (X eq_refl). reflexivity. Qed.

Definition i32_case (uri : string) : tcase :=
  Tcase uri "" "add" [Case i32 "5" (CLit five); Case i32 "5" (CLit five)] [] OError [("overflow", "ERROR"); ("x", "Y")] [] "" [] false.
Definition any_fn : variant := Variant "extension:io.substrait:functions_x" "add" 0 (Impl ["any"; "any"]%string [] "" "" 0).
Definition any_coll : coll := Coll [] [] [(ExtId "extension:io.substrait:functions_x" "add:any_any", any_fn)] [] [] [] [] [].
Example C67_nonvacuous :
  let ans v ts s := @Ok (ty * eset) (i32, s) in
  let opts := [("overflow", ["ERROR"]); ("x", ["Y"])] in
  let args := [AExpr (ExprModel.ELit five); AExpr (ExprModel.ELit five)] in
  (exists s', scalar_invocation (fun _ : unit => Err) ans (fun _ _ => Ok false) (fun _ => None) one_func (new_registry [] [] []) (i32_case "extension:x")
     (k_options (i32_case "")) (k_options (i32_case "")) new_set = Ok (EScalar 1 add_fn args opts i32, s')) /\
  (exists s', scalar_invocation (fun _ : unit => Err) ans (fun _ _ => Ok true) (fun _ => None) any_coll (new_registry [add_fn; any_fn] [] []) (i32_case "/extensions/functions_x.yaml")
     (k_options (i32_case "")) (k_options (i32_case "")) new_set = Ok (EScalar 1 any_fn args opts i32, s')) /\
  (exists s' e, aggregate_invocation (fun _ : unit => Err) ans (fun _ _ => Ok true) (fun _ => None)
     (Coll [] [] [] [(ExtId "extension:x" "f:i8_str", Variant "extension:x" "f" 0 (Impl ["i8"; "str"]%string [] "" "" 0))] [] [] [] []) (new_registry [] [] [])
     (agg_case "f" [column_arg 0 "col0" ti8; column_arg 1 "col1" tstr] [[LNull ti8]; [LNull tstr]] []) [] [] new_set = Ok (e, s') /\
     ag_args e = [AExpr (ERef RRoot (RefSeg [SField 0]) (XTy ti8)); AExpr (ERef RRoot (RefSeg [SField 1]) (XTy tstr))]) /\
  columns_data (agg_case "f" [column_arg 0 "col0" ti8; column_arg 1 "col1" tstr] [[LNull ti8]; [LNull tstr]] []) = Ok [[LNull ti8]; [LNull tstr]] /\
  urn_of "/extensions/functions_x.yaml" "extension:io.substrait:functions_x".
Proof.
  cbv zeta. split; [eexists; vm_compute; reflexivity|]. split; [eexists; vm_compute; reflexivity|]. split; [do 2 eexists; split; vm_compute; reflexivity|].
  split; [reflexivity|]. apply case_urn_iff. reflexivity.
Qed.

Example C67_panics_nonvacuous :
  let ans v ts s := @Ok (ty * eset) (i32, s) in
  let bare := {| a_arg := None; a_table := ""; a_column := ""; a_type := None; a_index := 0; a_scalar := true |} in
  scalar_invocation (fun _ : unit => Err) ans (fun _ _ => Panic) (fun _ => None) any_coll (new_registry [add_fn; any_fn] [] []) (i32_case "/extensions/functions_x.yaml") [] [] new_set = Panic /\
  aggregate_invocation (fun _ : unit => Err) ans (fun _ _ => Ok true) (fun _ => None) any_coll (new_registry [] [] []) (agg_case "f" [bare] [] []) [] [] new_set = Panic /\
  columns_data (agg_case "f" [bare] [] []) = Panic.
Proof. cbv zeta. split; [vm_compute; reflexivity|]. split; reflexivity. Qed.

Print Assumptions C67_name.
Print Assumptions C67_types.
Print Assumptions C67_options.
Print Assumptions C67_scalar.
Print Assumptions C67_scalar_refused.
Print Assumptions C67_aggregate.
Print Assumptions C67_other_kind.
Print Assumptions C67_scalar_panics.
Print Assumptions C67_aggregate_panics.
Print Assumptions C67_column_type.
Print Assumptions C67_options_kept.
Print Assumptions C67_data.
Print Assumptions C67_no_data.
Print Assumptions C67_data_panics.
Print Assumptions C67_second_column_refuted.
Print Assumptions C67_column_order_refuted.
Print Assumptions C67_after_constant_refuted.
Print Assumptions C67_nonvacuous.
