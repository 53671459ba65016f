(** Proofs about what expressions print. *)

From Coq Require Import ZArith Ascii String Bool Lia List.
From Verif Require Import Base FMap TypesModel ExtSetModel LoadModel LitModel LitProofs ExprModel ExprProofs TimeModel CalModel
  TestPrintModel TestPrintSpec TestPrintProofs TestPrintOneProofs ExprTextModel ExprTextSpec.
Import ListNotations.
Local Open Scope string_scope.
Local Open Scope Z_scope.

Lemma append_empty : forall s : string, s ++ "" = s.
Proof. induction s as [|c s IH]; [reflexivity|]. cbn [append]. rewrite IH. reflexivity. Qed.

(** ** numbers, lists and names *)

Lemma same_length : forall A B (P : A -> B -> Prop) l m, Forall2 P l m -> List.length l = List.length m.
Proof. intros A B P l m H. induction H; cbn; congruence. Qed.
Lemma whole_iff : forall z s, prints_whole z s <-> s = string_of_Z z.
Proof. intros z s. split; [intros H; apply (whole_one z); auto using whole_text|intros ->; apply whole_text]. Qed.
Lemma sep_iff : forall sep l s, separated sep l s <-> s = join sep l.
Proof. intros sep l s. split; [intros H; apply (separated_one sep l); auto using joined|intros ->; apply joined]. Qed.

(** [f] gives the texts of [P], and panics exactly at [F] *)
Definition exact {A} (P : A -> string -> Prop) (F : A -> Prop) (f : A -> res string) (x : A) : Prop :=
  (forall s, P x s <-> f x = Ok s) /\ (F x <-> f x = Panic) /\ f x <> Err.
Lemma exact_ext : forall A (P : A -> string -> Prop) F f g x, f x = g x -> exact P F f x -> exact P F g x.
Proof. intros A P F f g x E (H & K & N). unfold exact. rewrite <- E. auto. Qed.

Lemma mapM_exact : forall A (P : A -> string -> Prop) F f l, Forall (exact P F f) l ->
  (forall ws, Forall2 P l ws <-> mapM f l = Ok ws) /\ (Exists F l <-> mapM f l = Panic) /\ mapM f l <> Err.
Proof.
  intros A P F f l H. induction H as [|x l (Hx & Kx & Nx) H (IH & IK & IN)]; cbn.
  - split; [|split; [|discriminate]].
    + intros ws. split; [intros H; inversion H; reflexivity|intros H; injection H as <-; constructor].
    + split; [intros H; inversion H|discriminate].
  - change ((fix go l := match l with [] => Ok [] | x :: l' => match f x with Ok y => match go l' with Ok ys => Ok (y :: ys) | Err => Err | Panic => Panic end | Err => Err | Panic => Panic end end) l) with (mapM f l).
    rewrite Exists_cons. destruct (f x) as [y| |] eqn:E; [|contradiction|].
    + assert (~ F x) by (intros C; apply Kx in C; discriminate).
      destruct (mapM f l) as [ys| |] eqn:E'; [|contradiction|].
      * split; [|split; [|discriminate]].
        -- intros ws. split.
           ++ intros H'. inversion H' as [|? s ? ws' H1 H2]; subst. apply Hx in H1. apply IH in H2. congruence.
           ++ intros H'. injection H' as <-. constructor; [apply Hx; reflexivity|apply IH; reflexivity].
        -- split; [|discriminate]. intros [C|C]; [contradiction|]. apply IK in C. discriminate.
      * split; [|split; [|discriminate]].
        -- intros ws. split; [|discriminate]. intros H'. inversion H' as [|? s ? ws' H1 H2]; subst. apply IH in H2. discriminate.
        -- split; [reflexivity|]. intros _. right. apply IK. reflexivity.
    + split; [|split; [|discriminate]].
      * intros ws. split; [|discriminate]. intros H'. inversion H' as [|? s ? ws' H1 H2]; subst. apply Hx in H1. discriminate.
      * split; [reflexivity|]. intros _. left. apply Kx. reflexivity.
Qed.

Lemma listed_exact : forall A (P : A -> string -> Prop) F f sep l, Forall (exact P F f) l ->
  forall s, listed P sep l s <-> exists ws, mapM f l = Ok ws /\ s = join sep ws.
Proof.
  intros A P F f sep l H s. destruct (mapM_exact _ _ _ _ _ H) as (M & _). split.
  - intros L. inversion L as [ws ? W S]; subst. exists ws. split; [apply M; exact W|apply sep_iff; exact S].
  - intros (ws & W & ->). apply Listed with (ws := ws); [apply M; exact W|apply joined].
Qed.
Lemma listed_texts : forall A (P : A -> string -> Prop) g sep l, Forall (fun x => forall s, P x s <-> s = g x) l ->
  forall s, listed P sep l s <-> s = join sep (map g l).
Proof.
  intros A P g sep l H s.
  assert (M : forall ws, Forall2 P l ws <-> ws = map g l).
  { induction H as [|x l Hx H IH]; intros ws; cbn [map].
    - split; [intros F; inversion F; reflexivity|intros ->; constructor].
    - split.
      + intros F. inversion F as [|? y ? ys F1 F2]; subst. apply Hx in F1. apply IH in F2. congruence.
      + intros ->. constructor; [apply Hx; reflexivity|apply IH; reflexivity]. }
  split.
  - intros L. inversion L as [ws ? W S]; subst. apply M in W. subst. apply sep_iff. exact S.
  - intros ->. apply Listed with (ws := map g l); [apply M; reflexivity|apply joined].
Qed.
Lemma two_exact : forall A B (P : A -> string -> Prop) F f (Q : B -> string -> Prop) G g o m c a b, exact P F f a -> exact Q G g b ->
  exact (two P Q o m c) (fun p => F (fst p) \/ G (snd p))
    (fun p => match p with (a, b) => let! x := f a in let! y := g b in Ok (o ++ x ++ m ++ y ++ c) end) (a, b).
Proof.
  intros A B P F f Q G g o m c a b (H1 & K1 & N1) (H2 & K2 & N2). unfold exact. cbn [fst snd].
  destruct (f a) as [x| |]; [|contradiction|]; cbn.
  - destruct (g b) as [y| |]; [|contradiction|]; cbn.
    + split; [|split; [|discriminate]].
      * intros s. split.
        -- intros T. inversion T as [? ? x' y' T1 T2]; subst. apply H1 in T1. apply H2 in T2. congruence.
        -- intros T. injection T as <-. constructor; [apply H1|apply H2]; reflexivity.
      * rewrite K1, K2. split; [intros [C|C]|]; discriminate.
    + split; [|split; [|discriminate]].
      * intros s. split; [|discriminate]. intros T. inversion T as [? ? x' y' T1 T2]; subst. apply H2 in T2. discriminate.
      * rewrite K2. tauto.
  - split; [|split; [|discriminate]].
    + intros s. split; [|discriminate]. intros T. inversion T as [? ? x' y' T1 T2]; subst. apply H1 in T1. discriminate.
    + rewrite K1. tauto.
Qed.
Lemma two_texts : forall A B (P : A -> string -> Prop) f (Q : B -> string -> Prop) g o m c p, (forall s, P (fst p) s <-> s = f (fst p)) ->
  (forall s, Q (snd p) s <-> s = g (snd p)) -> forall s, two P Q o m c p s <-> s = o ++ f (fst p) ++ m ++ g (snd p) ++ c.
Proof.
  intros A B P f Q g o m c [a b] H1 H2 s. cbn [fst snd] in *. split.
  - intros T. inversion T as [? ? x y T1 T2]; subst. apply H1 in T1. apply H2 in T2. congruence.
  - intros ->. constructor; [apply H1|apply H2]; reflexivity.
Qed.
Lemma clause_texts : forall A (P : A -> string -> Prop) g o sep c l, (forall x s, P x s <-> s = g x) ->
  forall s, clause P o sep c l s <-> s = match l with [] => "" | _ => o ++ join sep (map g l) ++ c end.
Proof.
  intros A P g o sep c l H s. assert (L : forall l s, listed P sep l s <-> s = join sep (map g l)).
  { intros l'. apply listed_texts. apply Forall_forall. auto. }
  split.
  - intros C. inversion C as [|x l' t T]; subst; [reflexivity|]. apply L in T. subst. reflexivity.
  - intros ->. destruct l; constructor. apply L. reflexivity.
Qed.
Lemma clause_exact : forall A (P : A -> string -> Prop) F f o sep c l, Forall (exact P F f) l ->
  forall s, clause P o sep c l s <-> exists ws, mapM f l = Ok ws /\ s = match l with [] => "" | _ => o ++ join sep ws ++ c end.
Proof.
  intros A P F f o sep c l H s. split.
  - intros C. inversion C as [|x l' t T]; subst; [exists []; split; reflexivity|].
    rewrite (listed_exact _ _ _ _ _ _ H) in T. destruct T as (ws & W & ->). exists ws. split; [exact W|reflexivity].
  - intros (ws & W & ->). destruct l; constructor. rewrite (listed_exact _ _ _ _ _ _ H). eauto.
Qed.
Lemma itself_iff : forall x s, itself x s <-> s = x.
Proof. intros. unfold itself. split; congruence. Qed.
Lemma itselves : forall sep l s, listed itself sep l s <-> s = join sep l.
Proof.
  intros. rewrite (listed_texts _ _ (fun x => x)); [rewrite map_id; reflexivity|]. apply Forall_forall. intros. apply itself_iff.
Qed.

(** the numbers of an enumeration count its names *)
Fixpoint counted (i : Z) (names : list string) : list (Z * string) :=
  match names with [] => [] | s :: l => (i, s) :: counted (i + 1) l end.
Lemma counted_in : forall names i z s, In (z, s) (counted i names) <-> i <= z /\ nth_error names (Z.to_nat (z - i)) = Some s.
Proof.
  induction names as [|n names IH]; intros i z s; cbn [counted In].
  - split; [contradiction|]. intros (_ & H). destruct (Z.to_nat (z - i)); discriminate.
  - rewrite IH. split.
    + intros [E|(L & H)].
      * injection E as <- <-. split; [lia|]. rewrite Z.sub_diag. reflexivity.
      * split; [lia|]. replace (Z.to_nat (z - i)) with (S (Z.to_nat (z - (i + 1)))) by lia. exact H.
    + intros (L & H). destruct (Z.eq_dec z i) as [->|D].
      * left. rewrite Z.sub_diag in H. cbn in H. congruence.
      * right. split; [lia|]. replace (Z.to_nat (z - i)) with (S (Z.to_nat (z - (i + 1)))) in H by lia. exact H.
Qed.
Lemma cites_iff : forall names z s, cites (counted 0 names) z s <-> s = enum_text names z.
Proof.
  intros names z s. unfold enum_text.
  assert (K : In z (map fst (counted 0 names)) <-> exists s, In (z, s) (counted 0 names)).
  { rewrite in_map_iff. split; [intros ([z' s'] & E & I); cbn in E; subst; eauto|intros (s' & I); exists (z, s'); auto]. }
  destruct (Z.ltb_spec z 0) as [L|L].
  - split.
    + intros C. destruct C as [s I|s N W]; [apply counted_in in I; lia|apply whole_iff; exact W].
    + intros ->. apply Cites_number; [|apply whole_text]. rewrite K. intros (s & I). apply counted_in in I. lia.
  - destruct (nth_error names (Z.to_nat z)) as [t|] eqn:E.
    + split.
      * intros C. destruct C as [s I|s N W].
        -- apply counted_in in I. rewrite Z.sub_0_r in I. destruct I. congruence.
        -- exfalso. apply N. apply K. exists t. apply counted_in. rewrite Z.sub_0_r. auto.
      * intros ->. apply Cites_name. apply counted_in. rewrite Z.sub_0_r. auto.
    + split.
      * intros C. destruct C as [s I|s N W]; [apply counted_in in I; rewrite Z.sub_0_r in I; destruct I; congruence|apply whole_iff; exact W].
      * intros ->. apply Cites_number; [|apply whole_text]. rewrite K. intros (s & I). apply counted_in in I. rewrite Z.sub_0_r in I. destruct I. congruence.
Qed.
Lemma failure_iff : forall z s, cites failure_behaviors z s <-> s = cast_behavior_text z.
Proof. intros. apply (cites_iff ["FAILURE_BEHAVIOR_UNSPECIFIED"; "FAILURE_BEHAVIOR_RETURN_NULL"; "FAILURE_BEHAVIOR_THROW_EXCEPTION"]). Qed.
Lemma phase_iff : forall z s, cites phases z s <-> s = phase_text z.
Proof.
  intros. apply (cites_iff ["AGGREGATION_PHASE_UNSPECIFIED"; "AGGREGATION_PHASE_INITIAL_TO_INTERMEDIATE";
    "AGGREGATION_PHASE_INTERMEDIATE_TO_INTERMEDIATE"; "AGGREGATION_PHASE_INITIAL_TO_RESULT"; "AGGREGATION_PHASE_INTERMEDIATE_TO_RESULT"]).
Qed.
Lemma invocation_iff : forall z s, cites invocations z s <-> s = invocation_text z.
Proof. intros. apply (cites_iff ["AGGREGATION_INVOCATION_UNSPECIFIED"; "AGGREGATION_INVOCATION_ALL"; "AGGREGATION_INVOCATION_DISTINCT"]). Qed.
Lemma direction_iff : forall z s, cites directions z s <-> s = direction_text z.
Proof.
  intros. apply (cites_iff ["SORT_DIRECTION_UNSPECIFIED"; "SORT_DIRECTION_ASC_NULLS_FIRST"; "SORT_DIRECTION_ASC_NULLS_LAST";
    "SORT_DIRECTION_DESC_NULLS_FIRST"; "SORT_DIRECTION_DESC_NULLS_LAST"; "SORT_DIRECTION_CLUSTERED"]).
Qed.

Lemma means_iff : forall names mark z s, NoDup (map fst names) ->
  (means names mark z s <-> s = match find (fun p => z =? fst p) names with Some p => snd p | None => mark end).
Proof.
  intros names mark z s D. destruct (find _ names) as [[y t]|] eqn:E.
  - apply find_some in E. cbn [fst] in E. destruct E as (I & E). apply Z.eqb_eq in E. subst y. cbn [snd]. split.
    + intros M. destruct M as [s J|N]; [|exfalso; apply N; apply in_map_iff; exists (z, t); auto].
      revert D I J. clear. induction names as [|[y u] names IH]; cbn; [contradiction|]. intros D I J. inversion D as [|? ? N D']; subst.
      destruct I as [I|I], J as [J|J]; try congruence; auto; exfalso; apply N; apply in_map_iff; [exists (z, s)|exists (z, t)];
        (split; [injection J as -> || injection I as ->; reflexivity|assumption]).
    + intros ->. constructor. exact I.
  - assert (N : ~ In z (map fst names)).
    { rewrite in_map_iff. intros ([y t] & F & I). cbn in F. subst y. apply (find_none _ _ E) in I. cbn in I. rewrite Z.eqb_refl in I. discriminate. }
    split; [intros M; destruct M as [s J|_]; [exfalso; apply N; apply in_map_iff; exists (z, s); auto|reflexivity]|intros ->; apply Means_unknown; exact N].
Qed.
Ltac operator := intros; rewrite means_iff by (repeat constructor; cbn; intuition discriminate);
  cbn [find fst snd]; repeat (match goal with |- context [?z =? ?k] => destruct (z =? k) end; try reflexivity).
Lemma predicate_iff : forall z s, means predicates "UNKNOWN" z s <-> s = predicate_text z.
Proof. unfold predicate_text, predicates. operator. Qed.
Lemma reduction_iff : forall z s, means reductions "UNKNOWN" z s <-> s = reduction_text z.
Proof. unfold reduction_text, reductions. operator. Qed.
Lemma comparison_iff : forall z s, means comparisons "?" z s <-> s = comparison_text z.
Proof. unfold comparison_text, comparisons. operator. Qed.

Lemma order_exact : forall k, exact shows_order (fun k => k = SK_nil) sortkind_text k.
Proof.
  intros k. split; [|split; [destruct k; cbn; split; congruence|destruct k; discriminate]].
  intros s. split.
  - intros H. destruct H as [z s C|z s W]; cbn; [apply direction_iff in C|apply whole_iff in W]; congruence.
  - destruct k; cbn; intros H; [discriminate| |]; injection H as <-; constructor; [apply direction_iff; reflexivity|apply whole_text].
Qed.
Lemma bound_iff : forall b s, shows_bound b s <-> s = bound_text b.
Proof.
  intros b s. split.
  - intros H. destruct H as [z s W|z s W| |]; try (apply whole_iff in W; subst); reflexivity.
  - intros ->. destruct b; constructor; apply whole_text.
Qed.
Lemma bounds_iff : forall lo hi s, shows_bounds lo hi s <-> s = bounds_text lo hi.
Proof.
  intros lo hi s. split.
  - intros H. destruct H as [|b s W|b s W|b c s t W V]; try (apply bound_iff in W); try (apply bound_iff in V); subst; reflexivity.
  - intros ->. destruct lo, hi; constructor; apply bound_iff; reflexivity.
Qed.
Lemma scalar_options_iff : forall opts s, clause (two itself (listed itself ",") "" ": [" "]") ", {" ", " "}" opts s <-> s = scalar_options_text opts.
Proof.
  intros opts s. rewrite (clause_texts _ _ (fun o => "" ++ fst o ++ ": [" ++ join "," (snd o) ++ "]")); [reflexivity|].
  intros x t. apply (two_texts _ _ _ (fun x => x) _ (join ",")); intros; [apply itself_iff|apply itselves].
Qed.
Lemma window_options_iff : forall opts s,
  clause (two itself (listed itself " ") "" " => [" "]") "; [options: {" ", " "}]" opts s <-> s = window_options_text opts.
Proof.
  intros opts s. rewrite (clause_texts _ _ (fun o => "" ++ fst o ++ " => [" ++ join " " (snd o) ++ "]")); [reflexivity|].
  intros x t. apply (two_texts _ _ _ (fun x => x) _ (join " ")); intros; [apply itself_iff|apply itselves].
Qed.
Lemma nested_iff : forall n v s, shows_nested n v s <-> s = nested_end n v.
Proof. intros n v s. split; [intros [t W]; apply whole_iff in W; subst; reflexivity|intros ->; constructor; apply whole_text]. Qed.
Lemma params_iff : forall ts i l, shows_params i ts l <-> l = params_text i ts.
Proof.
  induction ts as [|t ts IH]; intros i l; cbn [params_text].
  - split; [intros H; inversion H; reflexivity|intros ->; constructor].
  - split.
    + intros H. inversion H as [|? ? ? s l' W P]; subst. apply whole_iff in W. apply IH in P. subst. reflexivity.
    + intros ->. constructor; [apply whole_text|apply IH; reflexivity].
Qed.
Lemma known_exact : forall x, exact shows_known (fun x => forall s, ~ shows_known x s) known_text x.
Proof.
  intros x. assert (H : forall s, shows_known x s <-> known_text x = Ok s).
  { intros s. split; [intros []; reflexivity|]. destruct x; cbn; intros H; try discriminate; injection H as <-; constructor. }
  split; [exact H|]. split; [|destruct x; discriminate]. split.
  - intros N. destruct (known_text x) as [s| |] eqn:E; [|destruct x; discriminate|reflexivity]. exfalso. apply (N s). apply H. reflexivity.
  - intros E s C. apply H in C. congruence.
Qed.

Section Proofs.
Variable R : Type.
Variable float_text : Z -> string.
Variable decimal_text : list Z -> Z -> string.
Variable other_text : lit -> string.
Variable lit_panic : lit -> string.
Variable expr_panic : expr R -> string.
Variable rel_text : R -> string.
Notation value_text := (value_string float_text decimal_text other_text).
Definition value (l : lit) (s : string) : Prop := value_text l = Ok s.
Notation lit_text := (lit_text float_text decimal_text other_text lit_panic).
Notation expr_text := (expr_text R float_text decimal_text other_text lit_panic expr_panic rel_text).
Notation shows_literal := (shows_literal value lit_panic).
Notation no_literal_text := (no_literal_text value).
Notation no_text := (no_text R value).
Notation shows := (shows R value lit_panic expr_panic rel_text).

(** ** literals *)

Lemma value_no_err : forall l, value_text l <> Err.
Proof.
  intros l. induction l using lit_ind'.
  - destruct l; try contradiction; try discriminate.
    + destruct k; discriminate.
    + cbn [value_string]. assert (T : forall z p, time_from_units z p <> Err).
      { intros z p. unfold time_from_units. repeat (match goal with |- context [if ?b then _ else _] => destruct b end; try discriminate). }
      destruct t; try (destruct v; discriminate).
      * destruct p; try (destruct v; discriminate).
      * destruct v; try discriminate. destruct (_ <? _)%nat; discriminate.
      * destruct v; try discriminate. unfold precision_timestamp_text, precision_timestamp_tz_text, precision_time_text. specialize (T z prec). destruct (time_from_units z prec); cbn; congruence.
      * destruct v; try discriminate. unfold precision_timestamp_text, precision_timestamp_tz_text, precision_time_text. specialize (T z prec). destruct (time_from_units z prec); cbn; congruence.
      * destruct v; try discriminate. unfold precision_timestamp_text, precision_timestamp_tz_text, precision_time_text. specialize (T z prec). destruct (time_from_units z prec); cbn; congruence.
  - discriminate.
  - cbn [value_string]. assert (M : mapM value_text fs <> Err).
    { induction H as [|x l Hx H IH]; [discriminate|]. cbn. fold (mapM value_text l). destruct (value_text x); try congruence.
      destruct (mapM value_text l); congruence. }
    destruct (mapM value_text fs); cbn; congruence.
  - discriminate.
Qed.

Lemma element_iff : forall l, exact shows_literal no_literal_text lit_text l ->
  forall s, element value lit_panic shows_literal l s <-> s = element_text lit_panic lit_text l.
Proof.
  intros l (H & K & N) s. split.
  - intros E. destruct E as [|l s T|l D F].
    + reflexivity.
    + apply H in T. unfold element_text. rewrite T. destruct l; try reflexivity. discriminate.
    + apply K in F. unfold element_text. rewrite F. destruct l; try reflexivity. congruence.
  - intros ->. destruct l; [apply Element_missing|..]; unfold element_text;
      (match goal with |- element _ _ _ ?l _ => destruct (lit_text l) as [tx| |] eqn:E; [apply Element_text; apply H; reflexivity|contradiction|apply Element_panic; [discriminate|apply K; reflexivity]] end).
Qed.

Lemma single_exact : forall l t, single_value l t -> lit_text l = (let! s := value_text l in Ok (type_string t ++ "(" ++ s ++ ")")) ->
  exact shows_literal no_literal_text lit_text l.
Proof.
  intros l t I E. unfold exact. rewrite E. pose proof (value_no_err l) as N.
  assert (U : forall t', single_value l t' -> t' = t) by (intros t' I'; destruct I; inversion I'; reflexivity).
  assert (V : forall s, shows_literal l s <-> exists v, value_text l = Ok v /\ s = type_string t ++ "(" ++ v ++ ")").
  { intros s. split.
    - intros S. destruct S as [| l t' v I' V| | | | |]; try (inversion I; fail). apply U in I'. subst t'. exists v. auto.
    - intros (v & V & ->). apply Shows_single; auto. }
  destruct (value_text l) as [v| |] eqn:EV; [|contradiction|]; cbn [bind].
  - split; [|split; [|discriminate]].
    + intros s. rewrite V. split; [intros (v' & W & ->); injection W as <-; reflexivity|intros W; injection W as <-; eauto].
    + split; [|discriminate]. intros [->|(_ & F)]; [inversion I|]. exfalso. apply (F v). exact EV.
  - split; [|split; [|discriminate]].
    + intros s. rewrite V. split; [intros (v' & W & _)|]; discriminate.
    + split; [reflexivity|]. intros _. right. split; [eauto|]. intros s C. unfold value in C. congruence.
Qed.
Lemma total_exact : forall l s, (forall t, ~ single_value l t) -> l <> LNil -> lit_text l = Ok s -> (forall s', shows_literal l s' <-> s' = s) ->
  exact shows_literal no_literal_text lit_text l.
Proof.
  intros l s I D E V. unfold exact. rewrite E. split; [|split; [|discriminate]].
  - intros s'. rewrite V. split; congruence.
  - split; [|discriminate]. intros [C|((t & C) & _)]; [contradiction|]. apply I in C. contradiction.
Qed.

Ltac whole := repeat match goal with H : prints_whole _ _ |- _ => apply whole_iff in H; subst end.

Lemma lit_exact : forall l, exact shows_literal no_literal_text lit_text l.
Proof.
  intros l. induction l using lit_ind'.
  - destruct l as [|t|v t|fs t|es t|kvs t|k bs t|v t|y m n|y m d se su pr n]; try contradiction.
    + split; [|split; [|discriminate]].
      * intros s. split; [intros E; inversion E as [|? ? ? I _| | | | |]; subst; inversion I|discriminate].
      * split; [reflexivity|intros _; left; reflexivity].
    + apply total_exact with (s := "null(" ++ type_string t ++ ")"); try discriminate; try reflexivity; [intros t' I; inversion I|].
      intros s. split; [intros E; inversion E as [|? ? ? I _| | | | |]; subst; [reflexivity|inversion I]|intros ->; constructor].
    + apply single_exact with (t := t); [constructor|reflexivity].
    + apply single_exact with (t := t); [constructor|reflexivity].
    + apply single_exact with (t := t); [constructor|reflexivity].
    + eapply total_exact; try discriminate; try reflexivity; [intros t' I; inversion I|].
      intros s. split; [intros E; inversion E as [|? ? ? I _| | | | |]; subst; [inversion I|whole; reflexivity]|intros ->; constructor; apply whole_text].
    + eapply total_exact; try discriminate; try reflexivity; [intros t' I; inversion I|].
      intros s. split; [intros E; inversion E as [|? ? ? I _| | | | |]; subst; [inversion I|whole; reflexivity]|intros ->; constructor; apply whole_text].
  - eapply total_exact; try discriminate; try reflexivity; [intros t' I; inversion I|].
    assert (L : forall s, listed (element value lit_panic shows_literal) " " fs s <-> s = join " " (map (element_text lit_panic lit_text) fs)).
    { apply listed_texts. eapply Forall_impl; [|exact H]. intros l E. apply element_iff. exact E. }
    intros s. split; [intros E; inversion E as [|? ? ? I _| | | | |]; subst; [inversion I|]|intros ->; constructor; apply L; reflexivity].
    match goal with H : listed _ _ _ _ |- _ => apply L in H; subst end. reflexivity.
  - eapply total_exact; try discriminate; try reflexivity; [intros t' I; inversion I|].
    assert (L : forall s, listed (element value lit_panic shows_literal) " " fs s <-> s = join " " (map (element_text lit_panic lit_text) fs)).
    { apply listed_texts. eapply Forall_impl; [|exact H]. intros l E. apply element_iff. exact E. }
    intros s. split; [intros E; inversion E as [|? ? ? I _| | | | |]; subst; [inversion I|]|intros ->; constructor; apply L; reflexivity].
    match goal with H : listed _ _ _ _ |- _ => apply L in H; subst end. reflexivity.
  - eapply total_exact; try discriminate; try reflexivity; [intros t' I; inversion I|].
    assert (L : forall s, listed (two (element value lit_panic shows_literal) (element value lit_panic shows_literal) "{" " " "}") " " kvs s <->
      s = join " " (map (fun p => match p with (k, v) => "{" ++ element_text lit_panic lit_text k ++ " " ++ element_text lit_panic lit_text v ++ "}" end) kvs)).
    { apply listed_texts. eapply Forall_impl; [|exact H]. intros [k v] (E1 & E2) s. rewrite two_texts; [|apply element_iff; exact E1|apply element_iff; exact E2].
      reflexivity. }
    intros s. split; [intros E; inversion E as [|? ? ? I _| | | | |]; subst; [inversion I|]|intros ->; constructor; apply L; reflexivity].
    match goal with H : listed _ _ _ _ |- _ => apply L in H; subst end. reflexivity.
Qed.

(** ** references *)

Lemma step_exact : forall x, exact (shows_step value lit_panic) (fun x => exists l, x = SKey l /\ no_literal_text l)
  (step_text float_text decimal_text other_text lit_panic) x.
Proof.
  intros [i|l|i]; unfold exact; cbn [step_text].
  - split; [|split; [|discriminate]].
    + intros s. split; [intros H; inversion H; subst; whole; reflexivity|intros H; injection H as <-; constructor; apply whole_text].
    + split; [intros (l & C & _)|]; discriminate.
  - destruct (lit_exact l) as (H & K & N). destruct (lit_text l) as [t| |] eqn:E; [|contradiction|]; cbn [bind].
    + split; [|split; [|discriminate]].
      * intros s. split.
        -- intros S. inversion S as [|? ? L|]; subst. apply H in L. congruence.
        -- intros S. injection S as <-. constructor. apply H. reflexivity.
      * split; [|discriminate]. intros (l' & C & F). injection C as <-. apply K in F. discriminate.
    + split; [|split; [|discriminate]].
      * intros s. split; [|discriminate]. intros S. inversion S as [|? ? L|]; subst. apply H in L. discriminate.
      * split; [reflexivity|]. intros _. exists l. split; [reflexivity|apply K; reflexivity].
  - split; [|split; [|discriminate]].
    + intros s. split; [intros H; inversion H; subst; whole; reflexivity|intros H; injection H as <-; constructor; apply whole_text].
    + split; [intros (l & C & _)|]; discriminate.
Qed.

(** ** expressions *)

Notation right := (exact shows no_text expr_text).
Lemma format_iff : forall e, right e -> forall s, formatted R value expr_panic shows e s <-> s = format_text R expr_panic expr_text e.
Proof.
  intros e (H & K & N) s. split.
  - intros E. destruct E as [|e s T|e D F].
    + reflexivity.
    + apply H in T. unfold format_text. rewrite T. destruct e as [[]| | | | | | | | | | | | | | | | |]; try reflexivity. discriminate.
    + apply K in F. unfold format_text. rewrite F. destruct e as [[]| | | | | | | | | | | | | | | | |]; try reflexivity. congruence.
  - intros ->. destruct e as [[]| | | | | | | | | | | | | | | | |]; [apply Format_missing|..]; unfold format_text;
      (match goal with |- formatted _ _ _ _ ?e _ => destruct (expr_text e) as [tx| |] eqn:E; [apply Format_text; apply H; reflexivity|contradiction|apply Format_panic; [discriminate|apply K; reflexivity]] end).
Qed.
Lemma argument_exact : forall a, match a with AExpr e => right e | _ => True end ->
  exact (shows_argument R shows) (fun a => exists e, a = AExpr e /\ no_text e) (argument_text R expr_text) a.
Proof.
  intros [x|t|e]; unfold exact; cbn [argument_text].
  - intros _. split; [|split; [split; [intros (e & C & _); discriminate|discriminate]|discriminate]].
    intros s. split; [intros H; inversion H; reflexivity|intros H; injection H as <-; constructor].
  - intros _. split; [|split; [split; [intros (e & C & _); discriminate|discriminate]|discriminate]].
    intros s. split; [intros H; inversion H; reflexivity|intros H; injection H as <-; constructor].
  - intros (H & K & N). split; [|split; [|exact N]].
    + intros s. rewrite <- H. split; [intros S; inversion S; auto|constructor; auto].
    + rewrite <- K. split; [intros (e' & C & F); injection C as <-; exact F|eauto].
Qed.
Lemma else_exact : forall word e, right e ->
  exact (shows_else R shows word) (fun e => Exists no_text (direct_else R e)) (else_text R expr_text word) e.
Proof.
  intros word e (H & K & N).
  assert (G : e <> ELit LNil -> direct_else R e = [e] /\ else_text R expr_text word e = (let! s := expr_text e in Ok (word ++ s))).
  { intros D. destruct e as [[]| | | | | | | | | | | | | | | | |]; try (split; reflexivity). congruence. }
  assert (D : e = ELit LNil \/ e <> ELit LNil). { destruct e as [[]| | | | | | | | | | | | | | | | |]; try (right; discriminate). left. reflexivity. }
  destruct D as [->|D].
  - unfold exact. cbn [else_text direct_else]. split; [|split; [split; [intros C; inversion C|discriminate]|discriminate]].
    intros s. split.
    + intros S. inversion S as [|? ? C]; subst; [reflexivity|]. apply H in C. discriminate.
    + intros S. injection S as <-. constructor.
  - destruct (G D) as (E1 & E2). unfold exact. rewrite E1, E2. destruct (expr_text e) as [t| |]; [|contradiction|]; cbn [bind].
    + split; [|split; [|discriminate]].
      * intros s. split.
        -- intros S. inversion S as [|? ? C]; subst; [congruence|]. apply H in C. congruence.
        -- intros S. injection S as <-. constructor. apply H. reflexivity.
      * rewrite Exists_cons, Exists_nil, K. split; [intros [C|C]; [discriminate|contradiction]|discriminate].
    + split; [|split; [|discriminate]].
      * intros s. split; [|discriminate]. intros S. inversion S as [|? ? C]; subst; [congruence|]. apply H in C. discriminate.
      * rewrite Exists_cons, Exists_nil, K. tauto.
Qed.
Lemma list_exact : forall l, Forall right l ->
  exact (shows_list R shows) (Exists no_text) (fun l => let! x := mapM expr_text l in Ok ("[" ++ join ", " x ++ "]")) l.
Proof.
  intros l F. destruct (mapM_exact _ _ _ _ _ F) as (_ & K & N). pose proof (listed_exact _ _ _ _ ", " _ F) as L.
  unfold exact. destruct (mapM expr_text l) as [ws| |]; [|contradiction|]; cbn [bind].
  - split; [|split; [|discriminate]].
    + intros s. split.
      * intros S. inversion S as [? t T]; subst. apply L in T. destruct T as (ws' & E & ->). congruence.
      * intros S. injection S as <-. constructor. apply L. eauto.
    + rewrite K. split; discriminate.
  - split; [|split; [|discriminate]].
    + intros s. split; [|discriminate]. intros S. inversion S as [? t T]; subst. apply L in T. destruct T as (ws' & E & ->). discriminate.
    + rewrite K. tauto.
Qed.

Lemma root_exact : forall r, match r with RExpr e => right e | _ => True end ->
  exact (shows_root R shows) (fun r => exists e, r = RExpr e /\ no_text e) (root_text R expr_text) r.
Proof.
  intros r. assert (T : forall s, (forall s', shows_root R shows r s' <-> s' = s) -> root_text R expr_text r = Ok s -> (forall e, r <> RExpr e) ->
    exact (shows_root R shows) (fun r => exists e, r = RExpr e /\ no_text e) (root_text R expr_text) r).
  { intros s V E D. unfold exact. rewrite E. split; [|split; [split; [intros (e & C & _); exfalso; apply (D e C)|discriminate]|discriminate]].
    intros s'. rewrite V. split; congruence. }
  destruct r as [|n|n|e].
  1-3: intros _; eapply T; [|reflexivity|discriminate]; intros s; split; [intros H; inversion H; subst; whole; reflexivity|intros ->; constructor; apply whole_text].
  intros (H & K & N). unfold exact. cbn [root_text]. destruct (expr_text e) as [t| |]; [|contradiction|]; cbn [bind].
  - split; [|split; [|discriminate]].
    + intros s. split.
      * intros S. inversion S as [| | |? ? C]; subst. apply H in C. congruence.
      * intros S. injection S as <-. constructor. apply H. reflexivity.
    + split; [|discriminate]. intros (e' & C & F). injection C as <-. apply K in F. discriminate.
  - split; [|split; [|discriminate]].
    + intros s. split; [|discriminate]. intros S. inversion S as [| | |? ? C]; subst. apply H in C. discriminate.
    + split; [reflexivity|]. intros _. exists e. split; [reflexivity|apply K; reflexivity].
Qed.
Lemma path_exact : forall f,
  exact (fun f s => exists path, f = RefSeg path /\ path <> [] /\ listed (shows_step value lit_panic) "" path s)
    (fun f => f = RefSeg [] \/ (exists m, f = RefMask m) \/ exists path l, f = RefSeg path /\ In (SKey l) path /\ no_literal_text l)
    (reference_text float_text decimal_text other_text lit_panic) f.
Proof.
  intros [[|x l]|m]; unfold exact.
  - cbn [reference_text]. split; [|split; [|discriminate]].
    + intros s. split; [intros (p & E & D & _); congruence|discriminate].
    + split; [reflexivity|]. auto.
  - assert (F : Forall (exact (shows_step value lit_panic) (fun x => exists l, x = SKey l /\ no_literal_text l) (step_text float_text decimal_text other_text lit_panic)) (x :: l)).
    { apply Forall_forall. intros. apply step_exact. }
    destruct (mapM_exact _ _ _ _ _ F) as (_ & K & N). pose proof (listed_exact _ _ _ _ "" _ F) as L. unfold reference_text.
    assert (K' : (RefSeg (x :: l) = RefSeg [] \/ (exists m, RefSeg (x :: l) = RefMask m) \/
      exists path k, RefSeg (x :: l) = RefSeg path /\ In (SKey k) path /\ no_literal_text k) <-> Exists (fun x => exists l, x = SKey l /\ no_literal_text l) (x :: l)).
    { rewrite Exists_exists. split.
      - intros [C|[(m & C)|(p & k & C & I & H)]]; try discriminate. injection C as <-. eauto.
      - intros (y & I & k & -> & H). right. right. eauto. }
    rewrite K', K. clear K'. destruct (mapM _ (x :: l)) as [ws| |] eqn:E; [|contradiction|]; cbn [bind].
    + split; [|split; [split; discriminate|discriminate]].
      intros s. split.
      * intros (p & C & _ & H). injection C as <-. apply L in H. destruct H as (ws' & H & ->). congruence.
      * intros C. injection C as <-. exists (x :: l). split; [reflexivity|]. split; [discriminate|]. apply L. eauto.
    + split; [|split; [tauto|discriminate]].
      intros s. split; [|discriminate]. intros (p & C & _ & H). injection C as <-. apply L in H. destruct H as (ws' & H & ->). discriminate.
  - cbn [reference_text]. split; [|split; [|discriminate]].
    + intros s. split; [intros (p & E & D & _); congruence|discriminate].
    + split; [reflexivity|]. intros _. right. left. eauto.
Qed.

Lemma needles_iff : forall l, Forall right l -> forall s,
  shows_needles R shows l s <-> exists ss, mapM expr_text l = Ok ss /\ s = match ss with [s] => s | _ => "(" ++ join ", " ss ++ ")" end.
Proof.
  intros l F s. destruct (mapM_exact _ _ _ _ _ F) as (M & _). pose proof (listed_exact _ _ _ _ ", " _ F) as L. split.
  - intros H. destruct H as [e s H|l s D H].
    + exists [s]. split; [|reflexivity]. apply M. constructor; [exact H|constructor].
    + apply L in H. destruct H as (ws & H & ->). exists ws. split; [exact H|]. apply M in H. apply same_length in H.
      destruct ws as [|a [|b ws]]; try reflexivity. exfalso. apply D. rewrite H. reflexivity.
  - intros (ss & H & ->). pose proof (proj2 (M ss) H) as G. pose proof (same_length _ _ _ _ _ G) as E.
    destruct ss as [|a [|b ss]].
    + apply Needle_more; [rewrite E; discriminate|]. apply L. eauto.
    + inversion G as [|x ? l' ? G1 G2]; subst. inversion G2; subst. constructor. exact G1.
    + apply Needle_more; [rewrite E; discriminate|]. apply L. eauto.
Qed.

Lemma no_text_iff : forall e, (forall l, e <> ELit l) -> (no_text e <-> malformed R value e \/ Exists no_text (direct R e)).
Proof.
  intros e D. split.
  - intros H. destruct H as [l|e M|e p I N]; [exfalso; apply (D l); reflexivity|left; exact M|right; apply Exists_exists; eauto].
  - intros [M|H]; [apply No_form; exact M|]. apply Exists_exists in H. destruct H as (p & I & N). apply No_part with (p := p); auto.
Qed.

Lemma ex_args : forall args, Exists no_text (flat_map (direct_argument R) args) <-> Exists (fun a => exists e, a = AExpr e /\ no_text e) args.
Proof.
  induction args as [|a args IH]; cbn [flat_map]; [split; intros H; inversion H|]. rewrite Exists_app, Exists_cons, IH.
  destruct a; cbn [direct_argument]; rewrite ?Exists_cons, ?Exists_nil; split; intros [H|H]; auto.
  - contradiction.
  - destruct H as (e & C & _). discriminate.
  - contradiction.
  - destruct H as (e & C & _). discriminate.
  - destruct H as [H|[]]. left. eauto.
  - destruct H as (e' & C & H). injection C as <-. auto.
Qed.
Lemma ex_pairs : forall l, Exists no_text (flat_map (fun p => [fst p; snd p]) l) <-> Exists (fun p => no_text (fst p) \/ no_text (snd p)) l.
Proof.
  induction l as [|p l IH]; cbn [flat_map]; [split; intros H; inversion H|]. rewrite Exists_app, !Exists_cons, Exists_nil, IH. tauto.
Qed.
Lemma ex_concat : forall A (P : A -> Prop) l, Exists P (List.concat l) <-> Exists (Exists P) l.
Proof.
  intros A P l. induction l as [|x l IH]; cbn [List.concat]; [split; intros H; inversion H|]. rewrite Exists_app, Exists_cons, IH. tauto.
Qed.
Lemma ex_and_pair : forall A B (P : A -> Prop) (Q : B -> Prop) l, Exists (fun p : A * B => P (fst p) \/ Q (snd p)) l <-> (exists a b, In (a, b) l /\ P a) \/ Exists Q (map snd l).
Proof.
  intros A B P Q l. rewrite !Exists_exists. split.
  - intros ([a b] & I & [H|H]); cbn [fst snd] in H; [left; eauto|right]. exists b. split; [|exact H]. apply in_map_iff. exists (a, b). auto.
  - intros [(a & b & I & H)|(b & I & H)]; [exists (a, b); auto|]. apply in_map_iff in I. destruct I as ([a b'] & E & I). cbn in E. subst. exists (a, b). auto.
Qed.

(** what a part printed as a list does to the whole *)
Ltac part F sep :=
  let M := fresh "M" in let K := fresh "K" in let N := fresh "N" in let L := fresh "L" in
  destruct (mapM_exact _ _ _ _ _ F) as (M & K & N); pose proof (listed_exact _ _ _ _ sep _ F) as L; clear M;
  match type of N with ?m <> Err => let ws := fresh "ws" in destruct m as [ws| |] eqn:?; [|contradiction|]; cbn [bind] end.
Ltac known_iffs :=
  repeat match goal with
  | H : prints_whole _ _ |- _ => apply whole_iff in H; subst
  | H : separated _ _ _ |- _ => apply sep_iff in H; subst
  | H : shows_nested _ _ _ |- _ => apply nested_iff in H; subst
  | H : shows_params _ _ _ |- _ => apply params_iff in H; subst
  | H : cites failure_behaviors _ _ |- _ => apply failure_iff in H; subst
  | H : cites phases _ _ |- _ => apply phase_iff in H; subst
  | H : cites invocations _ _ |- _ => apply invocation_iff in H; subst
  | H : means predicates _ _ _ |- _ => apply predicate_iff in H; subst
  | H : means reductions _ _ _ |- _ => apply reduction_iff in H; subst
  | H : means comparisons _ _ _ |- _ => apply comparison_iff in H; subst
  | H : shows_bounds _ _ _ |- _ => apply bounds_iff in H; subst
  | H : clause _ ", {" _ _ _ _ |- _ => apply scalar_options_iff in H; subst
  | H : clause _ "; [options: {" _ _ _ _ |- _ => apply window_options_iff in H; subst
  | L : (forall s, ?P s <-> exists ws, _ = _ /\ _ = _), H : ?P _ |- _ => apply L in H; let E := fresh in destruct H as (? & E & ?); try discriminate E; injection E as <-; subst
  | L : (forall s, ?P s <-> s = _), H : ?P _ |- _ => apply L in H; subst
  | L : (forall s, ?P s <-> Ok _ = Ok s), H : ?P _ |- _ => apply L in H; injection H as <-
  | L : (forall s, ?P s <-> Panic = Ok s), H : ?P _ |- _ => apply L in H; discriminate
  end.
Ltac fill :=
  first [apply whole_text | apply joined | apply nested_iff; reflexivity | apply params_iff; reflexivity | apply failure_iff; reflexivity
        | apply phase_iff; reflexivity | apply invocation_iff; reflexivity | apply predicate_iff; reflexivity | apply reduction_iff; reflexivity
        | apply comparison_iff; reflexivity | apply bounds_iff; reflexivity | apply scalar_options_iff; reflexivity | apply window_options_iff; reflexivity
        | match goal with L : (forall s, ?P s <-> exists ws, _ = _ /\ _ = _) |- ?P _ => apply L; eexists; split; reflexivity end
        | match goal with L : (forall s, ?P s <-> s = _) |- ?P _ => apply L; reflexivity end
        | match goal with L : (forall s, ?P s <-> Ok _ = Ok s) |- ?P _ => apply L; reflexivity end ].
Ltac nolit := intros ? C; discriminate C.
Ltac partc F o sep c :=
  let M := fresh "M" in let K := fresh "K" in let N := fresh "N" in let L := fresh "L" in
  destruct (mapM_exact _ _ _ _ _ F) as (M & K & N); pose proof (clause_exact _ _ _ _ o sep c _ F) as L; clear M;
  match type of N with ?m <> Err => let ws := fresh "ws" in destruct m as [ws| |] eqn:?; [|contradiction|]; cbn [bind] end.
Ltac sub H := let E1 := fresh "E" in let E2 := fresh "E" in let E3 := fresh "E" in destruct H as (E1 & E2 & E3);
  match type of E3 with ?m <> Err => let t := fresh "t" in destruct m as [t| |] eqn:?; [|contradiction|]; cbn [bind] end.
Ltac texts :=
  let s := fresh "s" in let S := fresh "S" in intros s; split;
  [intros S; inversion S; subst; known_iffs; first [reflexivity|congruence]|first [discriminate|intros S; injection S as <-; constructor; fill]].
Ltac fails := rewrite no_text_iff by nolit; cbn [direct];
  rewrite ?ex_args, ?Exists_app, ?ex_pairs, ?ex_concat, ?Exists_cons, ?Exists_app, ?Exists_nil;
  repeat match goal with K : (?P <-> _ = Panic) |- _ => rewrite K; clear K end;
  match goal with |- context [malformed R value ?e] => assert (~ malformed R value e) by (let C := fresh in intros C; inversion C) end;
  split; [intros C; intuition (try discriminate; try contradiction)|intuition (try discriminate)].
Ltac done := split; [texts|split; [fails|discriminate]].

Lemma expr_exact : forall e, right e.
Proof.
  intros e. induction e as [e F] using (expr_ind' R).
  destruct e as [l|r f known|fref decl args opts out|fref decl args opts out phase inv parts sorts bt lo hi|ifs els|m ifs els|v opts|v opts|t e fb
    |n v kvs|n v l|n v l|out ref|n v params body|r|l r|op r|red cmp l r]; cbn [children] in F.
  - destruct (lit_exact l) as (H & K & N). split; [|split; [|exact N]].
    + intros s. cbn [ExprTextModel.expr_text]. rewrite <- H. split; [intros S; inversion S; auto|constructor; auto].
    + cbn [ExprTextModel.expr_text]. rewrite <- K. split; [|constructor; auto]. intros S. inversion S as [|? M|? p I]; subst; auto; [inversion M|contradiction].
  - assert (FR : match r with RExpr e => right e | _ => True end) by (destruct r; auto; inversion F; auto).
    apply root_exact in FR. destruct FR as (R1 & R2 & R3). destruct (known_exact known) as (K1 & K2 & K3). destruct (path_exact f) as (P1 & P2 & P3).
    assert (T : no_text (ERef r f known) <-> root_text R expr_text r = Panic \/ known_text known = Panic \/ reference_text float_text decimal_text other_text lit_panic f = Panic).
    { rewrite no_text_iff by nolit. rewrite <- R2, <- K2, <- P2. split.
      - intros [M|H]; [inversion M; subst; auto|].
        + right. right. right. left. eauto.
        + right. right. right. right. eauto 8.
        + left. destruct r; cbn [direct] in H; try (inversion H; fail). apply Exists_cons in H. destruct H as [H|H]; [eauto|inversion H].
      - intros [(e & -> & H)|[H|[->|[(m & ->)|(p & l & -> & I & H)]]]].
        + right. cbn [direct]. auto.
        + left. constructor. exact H.
        + left. constructor.
        + left. constructor.
        + left. eapply No_key; eauto. }
    assert (S : forall s, shows (ERef r f known) s <-> exists a b c, root_text R expr_text r = Ok a /\ reference_text float_text decimal_text other_text lit_panic f = Ok b /\
      known_text known = Ok c /\ s = a ++ b ++ c).
    { intros s. split.
      - intros S. inversion S as [|? path ? a b c D A B C| | | | | | | | | | | | | | | |]; subst. exists a, b, c. split; [apply R1; exact A|].
        split; [apply P1; eauto|]. split; [apply K1; exact C|reflexivity].
      - intros (a & b & c & A & B & C & ->). apply P1 in B. destruct B as (path & -> & D & B). constructor; auto; [apply R1; exact A|apply K1; exact C]. }
    unfold exact. rewrite T. cbn [ExprTextModel.expr_text]. clear - S R3 K3 P3.
    assert (G : forall s, shows (ERef r f known) s <-> (let! rt := root_text R expr_text r in let! kt := known_text known in
      let! ft := reference_text float_text decimal_text other_text lit_panic f in Ok (rt ++ ft ++ kt)) = Ok s).
    { intros s. rewrite S. split.
      - intros (a & b & c & -> & -> & -> & ->). reflexivity.
      - intros H. destruct (root_text R expr_text r) as [a| |]; try discriminate. destruct (known_text known) as [c| |]; try discriminate.
        destruct (reference_text _ _ _ _ f) as [b| |]; try discriminate. cbn in H. injection H as <-. eauto 8. }
    split; [exact G|].
    destruct (root_text R expr_text r) as [a| |]; [|contradiction|]; cbn [bind]; [|split; [tauto|discriminate]].
    destruct (known_text known) as [c| |]; [|contradiction|]; cbn [bind]; [|split; [tauto|discriminate]].
    destruct (reference_text _ _ _ _ f) as [b| |]; [|contradiction|]; cbn [bind]; (split; [intuition discriminate|discriminate]).
  - apply ch_args in F. assert (FA : Forall (exact (shows_argument R shows) (fun a => exists e, a = AExpr e /\ no_text e) (argument_text R expr_text)) args).
    { eapply Forall_impl; [|exact F]. intros a. apply argument_exact. }
    unfold exact. cbn [ExprTextModel.expr_text]. part FA ", "; done.
  - apply Forall_app in F. destruct F as (F & G). apply Forall_app in G. destruct G as (FP & FS). apply ch_args in F. apply ch_map in FS.
    assert (FA : Forall (exact (shows_argument R shows) (fun a => exists e, a = AExpr e /\ no_text e) (argument_text R expr_text)) args).
    { eapply Forall_impl; [|exact F]. intros a. apply argument_exact. }
    assert (FB : Forall (exact (two (formatted R value expr_panic shows) shows_order "{expr: " ", " "}") (fun p => False \/ snd p = SK_nil)
      (fun p => match p with (e, k) => let! t := sortkind_text k in Ok ("{expr: " ++ format_text R expr_panic expr_text e ++ ", " ++ t ++ "}") end)) sorts).
    { eapply Forall_impl; [|exact FS]. intros [e k] H. cbn [fst] in H.
      apply (exact_ext _ _ _ (fun p => match p with (e, k) => let! x := Ok (format_text R expr_panic expr_text e) in let! y := sortkind_text k in Ok ("{expr: " ++ x ++ ", " ++ y ++ "}") end)); [reflexivity|].
      apply (two_exact _ _ _ (fun _ => False) (fun e => Ok (format_text R expr_panic expr_text e)) _ (fun k => k = SK_nil)); [|apply order_exact].
      split; [|split; [split; [contradiction|discriminate]|discriminate]].
      intros s. rewrite (format_iff _ H). split; congruence. }
    assert (M : malformed R value (EWindow fref decl args opts out phase inv parts sorts bt lo hi) <-> Exists (fun p : expr R * sortkind => False \/ snd p = SK_nil) sorts).
    { rewrite Exists_exists. split.
      - intros M. inversion M as [| | | |? ? ? ? ? ? ? ? ? ? ? ? e I|]; subst. exists (e, SK_nil). auto.
      - intros ([e k] & I & [[]|E]). cbn in E. subst k. econstructor. exact I. }
    unfold exact. cbn [ExprTextModel.expr_text]. part FA ", "; [partc FB "; sort: [" "," "]"; [partc FP "; partitions: [" ", " "]"|]|].
    all: split; [texts|split; [|discriminate]]; rewrite no_text_iff by nolit; cbn [direct]; rewrite Exists_app, ex_args, M.
    all: repeat match goal with K : (?P <-> _ = Panic) |- _ => rewrite K; clear K end; intuition discriminate.
  - apply Forall_app in F. destruct F as (F & G). apply ch_pairs in F. inversion G as [|? ? E _]; subst. apply (else_exact "") in E.
    assert (FA : Forall (exact (two shows shows "(" ") ?" "") (fun p => no_text (fst p) \/ no_text (snd p))
      (fun p => match p with (c, t) => let! a := expr_text c in let! b := expr_text t in Ok ("(" ++ a ++ ") ?" ++ b) end)) ifs).
    { eapply Forall_impl; [|exact F]. intros [c t] (H1 & H2). eapply exact_ext; [|apply two_exact; eassumption]. cbn.
      destruct (expr_text c); cbn; auto. destruct (expr_text t); cbn; auto. rewrite append_empty. reflexivity. }
    unfold exact. cbn [ExprTextModel.expr_text]. part FA ": "; [sub E|]; done.
  - inversion F as [|? ? FM FF]; subst. apply Forall_app in FF. destruct FF as (FI & FE). apply ch_map in FI. inversion FE as [|? ? E _]; subst. apply (else_exact "Else ") in E.
    assert (FA : Forall (exact (two shows_literal shows (String "010"%char "WHEN ") " THEN " ";") (fun p => no_literal_text (fst p) \/ no_text (snd p))
      (fun p => match p with (c, t) => let! x := lit_text c in let! y := expr_text t in Ok (String "010"%char "WHEN " ++ x ++ " THEN " ++ y ++ ";") end)) ifs).
    { eapply Forall_impl; [|exact FI]. intros [c t] H. apply two_exact; [apply lit_exact|exact H]. }
    assert (M : malformed R value (ESwitch m ifs els) <-> exists c t, In (c, t) ifs /\ no_literal_text c).
    { split; [intros M; inversion M; subst; eauto|]. intros (c & t & I & H). econstructor; eauto. }
    unfold exact. cbn [ExprTextModel.expr_text]. sub FM; [part FA ""; [sub E|]|].
    all: split; [texts|split; [|discriminate]]; rewrite no_text_iff by nolit; cbn [direct]; rewrite M, Exists_cons, Exists_app.
    all: repeat match goal with K : (Exists _ _ <-> _ = Panic) |- _ => rewrite ?ex_and_pair in K; revert K | K : (no_text _ <-> _ = Panic) |- _ => revert K end; clear; intuition discriminate.
  - inversion F as [|? ? FV FO]; subst. unfold exact. cbn [ExprTextModel.expr_text]. sub FV; [part FO ","|]; done.
  - apply Forall_app in F. destruct F as (FV & FO). apply ch_concat in FO. apply list_exact in FV.
    assert (FA : Forall (exact (shows_list R shows) (Exists no_text) (fun l => let! x := mapM expr_text l in Ok ("[" ++ join ", " x ++ "]"))) opts).
    { eapply Forall_impl; [|exact FO]. intros l. apply list_exact. }
    assert (C : forall a b : string, ("[" ++ a ++ "]") ++ " IN [" ++ b ++ "]" = "[" ++ a ++ "] IN [" ++ b ++ "]") by (intros a b; rewrite !append_assoc; reflexivity).
    apply (exact_ext _ _ _ (fun _ => let! a := (let! x := mapM expr_text v in Ok ("[" ++ join ", " x ++ "]")) in
      let! ss := mapM (fun l => let! x := mapM expr_text l in Ok ("[" ++ join ", " x ++ "]")) opts in Ok (a ++ " IN [" ++ join ", " ss ++ "]"))).
    { cbn [ExprTextModel.expr_text]. destruct (mapM expr_text v) as [a| |]; cbn [bind]; try reflexivity. destruct (mapM _ opts) as [b| |]; cbn [bind]; try reflexivity. rewrite C. reflexivity. }
    clear C. unfold exact in FV |- *. cbv beta in FV. sub FV; [part FA ", "|]; done.
  - inversion F as [|? ? FE _]; subst. pose proof (format_iff _ FE) as L. unfold exact. cbn [ExprTextModel.expr_text]. done.
  - apply ch_pairs in F.
    assert (FA : Forall (exact (two shows shows "" " => " "") (fun p => no_text (fst p) \/ no_text (snd p))
      (fun p => match p with (k, v) => let! a := expr_text k in let! b := expr_text v in Ok (a ++ " => " ++ b) end)) kvs).
    { eapply Forall_impl; [|exact F]. intros [c t] (H1 & H2). eapply exact_ext; [|apply two_exact; eassumption]. cbn.
      destruct (expr_text c); cbn; auto. destruct (expr_text t); cbn; auto. rewrite append_empty. reflexivity. }
    unfold exact. cbn [ExprTextModel.expr_text]. part FA ", "; done.
  - unfold exact. cbn [ExprTextModel.expr_text]. part F ", "; done.
  - unfold exact. cbn [ExprTextModel.expr_text]. part F ", "; done.
  - unfold exact. cbn [ExprTextModel.expr_text]. done.
  - inversion F as [|? ? FB _]; subst. unfold exact. cbn [ExprTextModel.expr_text]. sub FB; [|done]. split; [|split; [fails|discriminate]].
    intros s. split; [intros S; inversion S; subst; known_iffs; reflexivity|]. intros S. injection S as <-.
    apply Shows_lambda with (ws := params_text 0 params); [apply params_iff; reflexivity|apply joined|fill].
  - unfold exact. cbn [ExprTextModel.expr_text]. done.
  - pose proof (needles_iff _ F) as NI. unfold exact. cbn [ExprTextModel.expr_text]. destruct (mapM_exact _ _ _ _ _ F) as (_ & K & N).
    destruct (mapM expr_text l) as [ws| |]; [|contradiction|]; cbn [bind]; done.
  - unfold exact. cbn [ExprTextModel.expr_text]. done.
  - inversion F as [|? ? FE _]; subst. pose proof (format_iff _ FE) as L. unfold exact. cbn [ExprTextModel.expr_text]. done.
Qed.

End Proofs.
