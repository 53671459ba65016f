(** C84: builders, their plans and the extension set they share.  Proofs and theorems. *)

From Coq Require Import ZArith String List Bool Lia PeanoNat Permutation.
From Verif Require Import Base FMap ExtSetModel ExtSetSpec ExtSetProps PlanSetModel PlanSetSpec.
Import ListNotations.
Local Open Scope Z_scope.
Local Arguments Nat.ltb : simpl never.

Lemma put_nth : forall n x l i, nth_error (put n x l) i = if Nat.eqb n i then match nth_error l i with Some _ => Some x | None => None end else nth_error l i.
Proof. induction n as [|n IH]; intros x [|y l] [|i]; cbn; try reflexivity; [destruct (Nat.eqb n i); reflexivity|apply IH]. Qed.
Lemma put_length : forall n x l, List.length (put n x l) = List.length l.
Proof. induction n as [|n IH]; intros x [|y l]; cbn; try reflexivity. rewrite IH. reflexivity. Qed.
Lemma builders_app : forall h h', builders (h ++ h') = (builders h + builders h')%nat.
Proof. induction h as [|c h IH]; intros h'; cbn; [reflexivity|]. destruct c; rewrite IH; lia. Qed.
Lemma owners_app : forall h h' n, owners_from n (h ++ h') = (owners_from n h ++ owners_from (n + builders h) h')%list.
Proof.
  induction h as [|c h IH]; intros h' n; cbn [owners_from builders app]; [rewrite Nat.add_0_r; reflexivity|]. destruct c as [|b r|b|p r]; rewrite ?IH; try reflexivity.
  - f_equal. f_equal. lia.
  - destruct (Nat.ltb b n); reflexivity.
Qed.
Lemma asked_snoc : forall b h c, asked b (h ++ [c]) = match asked_of h c with Some (b', r) => if Nat.eqb b' b then (asked b h ++ [r])%list else asked b h | None => asked b h end.
Proof. intros b h c. unfold asked. rewrite rev_app_distr. cbn. rewrite rev_involutive. reflexivity. Qed.
Lemma asked_length : forall b h, (List.length (asked b h) <= List.length h)%nat.
Proof.
  intros b. induction h as [|c h IH] using rev_ind; [cbn; lia|]. rewrite asked_snoc, app_length. cbn [List.length]. destruct (asked_of h c) as [[b' r]|]; [|lia]. destruct (Nat.eqb b' b); [|lia]. rewrite app_length. cbn. lia.
Qed.
Lemma run_snoc_set : forall rs r s, run (rs ++ [r]) s = let! (s1, l) := run rs s in let! (s2, a) := get_anchor r s1 in Ok (s2, (l ++ [a])%list).
Proof.
  induction rs as [|q rs IH]; intros r s; cbn.
  - destruct (get_anchor r s) as [[s1 a]| |]; reflexivity.
  - destruct (get_anchor q s) as [[s1 a]| |]; cbn; try reflexivity. rewrite IH. destruct (run rs s1) as [[s2 l]| |]; cbn; try reflexivity. destruct (get_anchor r s2) as [[s3 x]| |]; reflexivity.
Qed.
Lemma brun_snoc : forall h c, brun (h ++ [c]) = fst (bstep (brun h) c).
Proof. intros h c. unfold brun. rewrite fold_left_app. reflexivity. Qed.

Definition good (h : list bcall) (w : shop) : Prop :=
  h_plans w = owners h /\ List.length (h_sets w) = builders h /\
  forall b s, nth_error (h_sets w) b = Some s -> exists l, run (asked b h) new_set = Ok (s, l).
Lemma unborn : forall h b, (builders h <= b)%nat -> asked b h = [].
Proof.
  induction h as [|c h IH] using rev_ind; intros b L; [reflexivity|]. rewrite builders_app in L. rewrite asked_snoc. destruct (asked_of h c) as [[b' r]|] eqn:A; [|apply IH; lia].
  assert (B : (b' < builders h)%nat).
  { destruct c as [|b0 r0|b0|p r0]; cbn in A; try discriminate.
    - destruct (Nat.ltb_spec b0 (builders h)); [|discriminate]. congruence.
    - destruct (nth_error (owners h) p) as [b0|] eqn:N; [|discriminate]. injection A as <- <-. apply nth_error_In in N. clear - N. unfold owners in N. revert N. assert (G : forall h n, In b0 (owners_from n h) -> (b0 < n + builders h)%nat).
      { induction h0 as [|c h0 IH]; intros n; cbn; [tauto|]. destruct c as [|x y|x|x y]; try (apply IH); [intros I; apply IH in I; lia|]. destruct (Nat.ltb_spec x n) as [LX|LX]; [|apply IH]. intros [<-|I]; [lia|apply IH; exact I]. }
      intros N. apply G in N. lia. }
  destruct (Nat.eqb_spec b' b) as [->|_]; [lia|apply IH; lia].
Qed.
Lemma ask_good : forall h c b r w, Z.of_nat (List.length (h ++ [c])) < 2 ^ 32 -> good h w -> asked_of h c = Some (b, r) -> builders (h ++ [c]) = builders h -> owners (h ++ [c]) = owners h ->
  (b < builders h)%nat -> good (h ++ [c]) (fst (ask w b r)) /\ exists a, snd (ask w b r) = Ok a /\ numbered a (r_id r) (first_uses ext_id_dec (ids_of (r_kind r) (asked b (h ++ [c])))).
Proof.
  intros h c b r w LH (P & L & G) A EB EO LB. unfold ask. destruct (nth_error (h_sets w) b) as [s|] eqn:N; [|apply nth_error_None in N; lia].
  destruct (G b s N) as [l R]. assert (AK : asked b (h ++ [c]) = (asked b h ++ [r])%list) by (rewrite asked_snoc, A, Nat.eqb_refl; reflexivity).
  assert (LA : Z.of_nat (List.length (asked b h ++ [r])) < 2 ^ 32) by (rewrite <- AK; pose proof (asked_length b (h ++ [c])); lia).
  destruct (C22_anchors_number_first_uses _ LA) as (s' & l' & R' & F & _). pose proof R' as R2. rewrite run_snoc_set, R in R2. cbn [bind] in R2. destruct (get_anchor r s) as [[s2 a]| |] eqn:GA; cbn [bind] in R2; try discriminate. injection R2 as <- <-.
  cbn [fst snd]. split.
  - split; [cbn; congruence|]. split; [cbn; rewrite put_length; congruence|]. intros b' s0 N'. cbn in N'. rewrite put_nth in N'. rewrite asked_snoc, A. destruct (Nat.eqb_spec b b') as [<-|NE].
    + rewrite N in N'. injection N' as <-. eauto.
    + apply G, N'.
  - exists a. split; [reflexivity|]. rewrite AK. apply Forall2_app_inv_l in F. destruct F as (l1 & l2 & F1 & F2 & EL). inversion F2 as [|? y ? ? H F3]; subst. inversion F3; subst. apply app_inj_tail in EL. destruct EL as [_ <-]. exact H.
Qed.
Lemma asked_bound : forall h c b r, asked_of h c = Some (b, r) -> (b < builders h)%nat.
Proof.
  intros h c b r A. destruct (Nat.lt_ge_cases b (builders h)) as [|L]; [assumption|]. exfalso. assert (L' : (builders (h ++ [c]) <= b)%nat).
  { rewrite builders_app. destruct c; cbn in *; try discriminate; lia. }
  pose proof (unborn _ _ L') as U. rewrite asked_snoc, A, Nat.eqb_refl in U. destruct (asked b h); discriminate.
Qed.
Lemma run_good : forall h, Z.of_nat (List.length h) < 2 ^ 32 -> good h (brun h).
Proof.
  induction h as [|c h IH] using rev_ind; intros LH.
  - split; [reflexivity|]. split; [reflexivity|]. intros [|b] s N; discriminate.
  - assert (LH' : Z.of_nat (List.length h) < 2 ^ 32) by (rewrite app_length in LH; cbn in LH; lia). specialize (IH LH'). rewrite brun_snoc. pose proof IH as (P & L & G).
    destruct c as [|b r|b|p r]; cbn [bstep].
    + split; [cbn; unfold owners in *; rewrite owners_app; cbn; rewrite app_nil_r; exact P|]. split; [cbn; rewrite app_length, builders_app; cbn; lia|].
      intros b s N. rewrite asked_snoc. cbn [asked_of]. cbn in N. destruct (Nat.lt_ge_cases b (List.length (h_sets (brun h)))) as [LB|LB]; [rewrite nth_error_app1 in N by exact LB; apply G; exact N|].
      rewrite unborn by lia. rewrite nth_error_app2 in N by exact LB. destruct (b - List.length (h_sets (brun h)))%nat as [|k]; [injection N as <-; exists []; reflexivity|destruct k; discriminate].
    + assert (EB : builders (h ++ [BAsk b r]) = builders h) by (rewrite builders_app; cbn; lia). assert (EO : owners (h ++ [BAsk b r]) = owners h) by (unfold owners; rewrite owners_app; cbn; apply app_nil_r).
      destruct (asked_of h (BAsk b r)) as [[b' r']|] eqn:A.
      * pose proof (asked_bound _ _ _ _ A) as LB. pose proof A as A'. cbn in A'. destruct (Nat.ltb b (builders h)); [|discriminate]. injection A' as <- <-. apply (ask_good h _ b r _ LH IH A EB EO LB).
      * cbn in A. destruct (Nat.ltb_spec b (builders h)) as [|LB]; [discriminate|]. unfold ask. destruct (nth_error (h_sets (brun h)) b) eqn:N; [assert (b < List.length (h_sets (brun h)))%nat by (apply nth_error_Some; congruence); lia|]. cbn.
        split; [congruence|]. split; [congruence|]. intros b' s N'. rewrite asked_snoc. cbn. destruct (Nat.ltb_spec b (builders h)); [lia|]. apply G, N'.
    + assert (AK : forall b', asked b' (h ++ [BPlan b]) = asked b' h) by (intros b'; rewrite asked_snoc; reflexivity). destruct (Nat.ltb_spec b (List.length (h_sets (brun h)))) as [LB|LB]; cbn [fst].
      * split; [cbn; unfold owners in *; rewrite owners_app; cbn; destruct (Nat.ltb_spec b (builders h)); [rewrite P; reflexivity|lia]|]. split; [cbn; rewrite builders_app; cbn; lia|]. intros b' s N. rewrite AK. apply G, N.
      * split; [unfold owners in *; rewrite owners_app; cbn; destruct (Nat.ltb_spec b (builders h)); [lia|rewrite app_nil_r; exact P]|]. split; [rewrite builders_app; cbn; lia|]. intros b' s N. rewrite AK. apply G, N.
    + assert (EB : builders (h ++ [PAsk p r]) = builders h) by (rewrite builders_app; cbn; lia). assert (EO : owners (h ++ [PAsk p r]) = owners h) by (unfold owners; rewrite owners_app; cbn; apply app_nil_r).
      rewrite P. destruct (nth_error (owners h) p) as [b|] eqn:N.
      * assert (A : asked_of h (PAsk p r) = Some (b, r)) by (cbn; rewrite N; reflexivity). apply (ask_good h _ b r _ LH IH A EB EO (asked_bound _ _ _ _ A)).
      * cbn. split; [congruence|]. split; [congruence|]. intros b' s N'. rewrite asked_snoc. cbn. rewrite N. apply G, N'.
Qed.

(** A request of a builder, or of a plan it built, is answered with the number of the id among the different ids asked of that builder and its plans. *)
Theorem C84_anchor : forall h c b r, Z.of_nat (List.length (h ++ [c])) < 2 ^ 32 -> asked_of h c = Some (b, r) ->
  exists a, snd (bstep (brun h) c) = Ok a /\ numbered a (r_id r) (first_uses ext_id_dec (ids_of (r_kind r) (asked b (h ++ [c])))).
Proof.
  intros h c b r LH A. assert (LH' : Z.of_nat (List.length h) < 2 ^ 32) by (rewrite app_length in LH; cbn in LH; lia). pose proof (run_good h LH') as G. pose proof (asked_bound _ _ _ _ A) as LB. pose proof G as (P & _ & _).
  destruct c as [|b0 r0|b0|p r0]; cbn in A; try discriminate.
  - destruct (Nat.ltb b0 (builders h)) eqn:E0; [|discriminate]. injection A as -> ->. cbn [bstep]. refine (proj2 (ask_good h (BAsk b r) b r _ LH G _ _ _ LB)); [cbn; rewrite E0; reflexivity|rewrite builders_app; cbn; lia|unfold owners; rewrite owners_app; cbn; apply app_nil_r].
  - destruct (nth_error (owners h) p) as [b1|] eqn:N; [|discriminate]. injection A as -> ->. cbn [bstep]. rewrite P, N. refine (proj2 (ask_good h (PAsk p r) b r _ LH G _ _ _ LB)); [cbn; rewrite N; reflexivity|rewrite builders_app; cbn; lia|unfold owners; rewrite owners_app; cbn; apply app_nil_r].
Qed.
(** Anchors stand, in a builder, for exactly the ids asked of that builder and its plans, whatever is asked of others. *)
Theorem C84_builder : forall h b k a id, Z.of_nat (List.length h) < 2 ^ 32 ->
  builder_sees (brun h) b k a = Some id <-> numbered a id (first_uses ext_id_dec (ids_of k (asked b h))).
Proof.
  intros h b k a id LH. destruct (run_good h LH) as (P & L & G). unfold builder_sees. destruct (nth_error (h_sets (brun h)) b) as [s|] eqn:N.
  - destruct (G b s N) as [l R]. assert (LA : Z.of_nat (List.length (asked b h)) < 2 ^ 32) by (pose proof (asked_length b h); lia). destruct (C22_anchors_number_first_uses _ LA) as (s' & l' & R' & _ & D & _). rewrite R in R'. injection R' as <- <-. apply D.
  - apply nth_error_None in N. rewrite unborn by lia. split; [discriminate|]. intros [_ X]. cbn in X. destruct (Z.to_nat (a - 1)); discriminate.
Qed.
(** A plan has the anchors of the builder that built it, those asked for after it was built too. *)
Theorem C84_plan : forall h p k a, Z.of_nat (List.length h) < 2 ^ 32 ->
  plan_sees (brun h) p k a = match nth_error (owners h) p with Some b => builder_sees (brun h) b k a | None => None end.
Proof. intros h p k a LH. destruct (run_good h LH) as (P & _ & _). unfold plan_sees. rewrite P. reflexivity. Qed.
Lemma first_uses_more : forall rs rs' k a id, numbered a id (first_uses ext_id_dec (ids_of k rs)) -> Z.of_nat (List.length (rs ++ rs')) < 2 ^ 32 -> numbered a id (first_uses ext_id_dec (ids_of k (rs ++ rs'))).
Proof.
  intros rs rs' k a id NU L. assert (L1 : Z.of_nat (List.length rs) < 2 ^ 32) by (rewrite app_length in L; lia).
  destruct (C22_anchors_number_first_uses _ L1) as (s1 & l1 & R1 & _ & D1 & _), (C22_anchors_number_first_uses _ L) as (s2 & l2 & R2 & _ & D2 & _).
  assert (RA : forall xs ys s, run (xs ++ ys) s = let! (s', l) := run xs s in let! (s'', l') := run ys s' in Ok (s'', (l ++ l')%list)).
  { induction xs as [|x xs IH]; intros ys s; cbn; [destruct (run ys s) as [[? ?]| |]; reflexivity|]. destruct (get_anchor x s) as [[s0 a0]| |]; cbn; try reflexivity. rewrite IH. destruct (run xs s0) as [[s3 l3]| |]; cbn; try reflexivity. destruct (run ys s3) as [[? ?]| |]; reflexivity. }
  pose proof R2 as R2'. rewrite RA, R1 in R2'. cbn [bind] in R2'. destruct (run rs' s1) as [[s3 l3]| |] eqn:R3; cbn [bind] in R2'; try discriminate. injection R2' as <- <-.
  apply D2. apply D1 in NU. apply (C22_anchors_stable rs rs' s1 l1 s3 l3 k a id L R1 R3 NU).
Qed.
(** What an anchor stands for in a builder or a plan never changes. *)
Lemma asked_more : forall b h h', exists rs, asked b (h ++ h') = (asked b h ++ rs)%list.
Proof.
  intros b h. induction h' as [|c h' [rs IH]] using rev_ind; [exists []; rewrite !app_nil_r; reflexivity|]. rewrite app_assoc, asked_snoc. destruct (asked_of (h ++ h') c) as [[b' r]|]; [|eauto]. destruct (Nat.eqb b' b); [|eauto]. exists (rs ++ [r])%list. rewrite IH, app_assoc. reflexivity.
Qed.
Theorem C84_stable : forall h h' b p k a id, Z.of_nat (List.length (h ++ h')) < 2 ^ 32 ->
  (builder_sees (brun h) b k a = Some id -> builder_sees (brun (h ++ h')) b k a = Some id) /\
  (plan_sees (brun h) p k a = Some id -> plan_sees (brun (h ++ h')) p k a = Some id).
Proof.
  intros h h' b p k a id LH. assert (LH' : Z.of_nat (List.length h) < 2 ^ 32) by (rewrite app_length in LH; lia).
  assert (B : forall b, builder_sees (brun h) b k a = Some id -> builder_sees (brun (h ++ h')) b k a = Some id).
  { intros b0 S. apply (C84_builder h b0 k a id LH') in S. apply C84_builder; [exact LH|]. destruct (asked_more b0 h h') as [rs E]. rewrite E. apply first_uses_more; [exact S|]. rewrite <- E. pose proof (asked_length b0 (h ++ h')). lia. }
  split; [apply B|]. rewrite !C84_plan by assumption. unfold owners. rewrite owners_app. destruct (nth_error (owners_from 0 h) p) as [b0|] eqn:N; [|discriminate]. rewrite nth_error_app1 by (apply nth_error_Some; congruence). rewrite N. apply B.
Qed.
(** Calls that concern another builder change nothing here. *)
Theorem C84_apart : forall h c b k a, Z.of_nat (List.length (h ++ [c])) < 2 ^ 32 -> (forall r, asked_of h c <> Some (b, r)) ->
  builder_sees (brun (h ++ [c])) b k a = builder_sees (brun h) b k a.
Proof.
  intros h c b k a LH NA. assert (LH' : Z.of_nat (List.length h) < 2 ^ 32) by (rewrite app_length in LH; cbn in LH; lia).
  assert (E : asked b (h ++ [c]) = asked b h) by (rewrite asked_snoc; destruct (asked_of h c) as [[b' r]|]; [|reflexivity]; destruct (Nat.eqb_spec b' b) as [->|]; [destruct (NA r eq_refl)|reflexivity]).
  destruct (builder_sees (brun h) b k a) as [id|] eqn:S.
  - apply C84_builder; [exact LH|]. rewrite E. apply (C84_builder h b k a id LH'). exact S.
  - destruct (builder_sees (brun (h ++ [c])) b k a) as [id|] eqn:S'; [|reflexivity]. apply (C84_builder _ b k a id LH) in S'. rewrite E in S'. apply (C84_builder h b k a id LH') in S'. congruence.
Qed.
(** A plan writes declarations exactly for what was asked of its builder and of the plans of its builder until it is written; reading them gives
    every anchor its meaning back. *)
Theorem C84_written : forall loaded h p b, Z.of_nat (List.length h) < 2 ^ 32 -> nth_error (owners h) p = Some b ->
  exists s, plan_set (brun h) p = Some s /\
  ((forall r, In r (asked b h) -> loaded (id_urn (r_id r)) = true) ->
   forall iu it iv jf shuf us ds,
   Permutation (s_urns s) iu -> Permutation (s_types s) it -> Permutation (s_vars s) iv -> Permutation (s_funcs s) jf -> (forall x, Permutation (shuf x) x) ->
   to_proto iu it iv jf shuf = Ok (us, ds) ->
   exists s', get_extension_set loaded us ds = Ok s' /\
   forall k a id, decode k a s' = Some id <-> numbered a id (first_uses ext_id_dec (ids_of k (asked b h)))).
Proof.
  intros loaded h p b LH N. destruct (run_good h LH) as (P & L & G). unfold plan_set. rewrite P, N.
  assert (B : asked_of h (PAsk p (Req KFunc (ExtId "" ""))) = Some (b, Req KFunc (ExtId "" ""))) by (cbn; rewrite N; reflexivity). apply asked_bound in B.
  destruct (nth_error (h_sets (brun h)) b) as [s|] eqn:NS; [|apply nth_error_None in NS; lia]. exists s. split; [reflexivity|]. intros HL iu it iv jf shuf us ds P1 P2 P3 P4 P5 W.
  destruct (G b s NS) as [l R]. assert (LA : Z.of_nat (List.length (asked b h)) < 2 ^ 32) by (pose proof (asked_length b h); lia).
  destruct (C23_write_read_roundtrip_partial loaded _ s l iu it iv jf shuf us ds LA R HL P1 P2 P3 P4 P5 W) as (s' & E & D & _). exists s'. split; [exact E|].
  intros k a id. rewrite <- D. rewrite <- (C84_builder h b k a id LH). unfold builder_sees. rewrite NS. reflexivity.
Qed.
(** Requests of a builder or plan that is not there panic and change nothing. *)
Theorem C84_missing : forall h c, Z.of_nat (List.length h) < 2 ^ 32 -> asked_of h c = None ->
  match c with BAsk _ _ | PAsk _ _ => bstep (brun h) c = (brun h, Panic) | BNew => True | BPlan b => (builders h <= b)%nat -> bstep (brun h) c = (brun h, Panic) end.
Proof.
  intros h c LH A. destruct (run_good h LH) as (P & L & _). destruct c as [|b r|b|p r]; cbn in *; [exact I|..].
  - destruct (Nat.ltb_spec b (builders h)) as [|LB]; [discriminate|]. unfold ask. destruct (nth_error (h_sets (brun h)) b) eqn:N; [assert (b < List.length (h_sets (brun h)))%nat by (apply nth_error_Some; congruence); lia|reflexivity].
  - intros LB. destruct (Nat.ltb_spec b (List.length (h_sets (brun h)))); [lia|reflexivity].
  - rewrite P. destruct (nth_error (owners h) p); [discriminate|reflexivity].
Qed.
(** Making a builder always works, and building a plan works whenever the builder is there. *)
Theorem C84_made : forall h b, Z.of_nat (List.length h) < 2 ^ 32 ->
  snd (bstep (brun h) BNew) = Ok 0 /\ ((b < builders h)%nat -> snd (bstep (brun h) (BPlan b)) = Ok 0).
Proof.
  intros h b LH. destruct (run_good h LH) as (_ & L & _). split; [reflexivity|]. intros LB. cbn. destruct (Nat.ltb_spec b (List.length (h_sets (brun h)))); [reflexivity|lia].
Qed.
(** A plan is not finished when it is built: what the builder is asked for later is declared in it too. *)
Theorem C84_plan_grows_refuted : forall f shuf, exists s s',
  plan_set (brun [BNew; BPlan 0]) 0 = Some s /\ to_proto (s_urns s) (s_types s) (s_vars s) (s_funcs s) shuf = Ok ([], []) /\
  plan_set (brun [BNew; BPlan 0; BAsk 0 (Req KFunc (ExtId "u" f))]) 0 = Some s' /\
  to_proto (s_urns s') (s_types s') (s_vars s') (s_funcs s') shuf = Ok ([UrnMsg 1 "u"], [DFunc 1 1 f]) /\
  plan_sees (brun [BNew; BPlan 0]) 0 KFunc 1 = None /\ plan_sees (brun [BNew; BPlan 0; BAsk 0 (Req KFunc (ExtId "u" f))]) 0 KFunc 1 = Some (ExtId "u" f).
Proof. intros f shuf. eexists. eexists. repeat split; vm_compute; reflexivity. Qed.
Example C84_nonvacuous :
  let f := ExtId "u" "f" in let g := ExtId "u" "g" in
  let h := [BNew; BNew; BAsk 0 (Req KFunc f); BAsk 1 (Req KFunc g); BPlan 1; BPlan 0; PAsk 1 (Req KFunc g); BAsk 0 (Req KType g)] in
  owners h = [1; 0]%nat /\ asked 0 h = [Req KFunc f; Req KFunc g; Req KType g] /\ asked 1 h = [Req KFunc g] /\
  map (fun p => map (plan_sees (brun h) p KFunc) [1; 2]) [0; 1]%nat = [[Some g; None]; [Some f; Some g]].
Proof. repeat split. Qed.

Print Assumptions C84_anchor.
Print Assumptions C84_builder.
Print Assumptions C84_plan.
Print Assumptions C84_stable.
Print Assumptions C84_apart.
Print Assumptions C84_missing.
Print Assumptions C84_written.
Print Assumptions C84_made.
Print Assumptions C84_plan_grows_refuted.
Print Assumptions C84_nonvacuous.
