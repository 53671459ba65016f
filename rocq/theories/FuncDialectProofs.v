(** Facts about the function registry, dialect files and localization (C26, C27, C50, C51). *)

From Coq Require Import ZArith String Ascii Bool Lia List Permutation.
From Verif Require Import Base FMap FMapFacts ExtSetModel ExtSetProofs LoadModel LoadSpec LoadProofs TypesModel SigModel ExprModel ExprSpec ExprWireProofs FuncModel FuncSpec FuncTypeProofs.
Import ListNotations.
Local Open Scope string_scope.

(** ** C26 *)

Definition named (n : string) (f : variant) : bool := String.eqb (v_name f) n.

Lemma filter_ext_iff : forall A (p q : A -> bool) (P : A -> Prop) l,
  decides p P -> decides q P -> filter p l = filter q l.
Proof.
  intros A p q P l Hp Hq. apply filter_ext. intros a. destruct (p a) eqn:E1, (q a) eqn:E2; auto.
  - apply Hp, Hq in E1. congruence.
  - apply Hq, Hp in E2. congruence.
Qed.

Lemma process_functions_spec : forall fs m a,
  let st := process_functions fs (m, a) in
  (forall n, get_or_empty String.eqb n (fst st) = (get_or_empty String.eqb n m ++ filter (named n) fs)%list) /\
  snd st = (a ++ fs)%list.
Proof.
  unfold process_functions. induction fs as [|f fs IH]; intros m a; cbn [fold_left]; cbn zeta.
  - cbn. split; [intros; rewrite app_nil_r; auto|rewrite app_nil_r; auto].
  - cbn [fst snd]. destruct (IH (fm_set String.eqb (v_name f) (get_or_empty String.eqb (v_name f) m ++ [f])%list m) (a ++ [f])%list) as [H1 H2].
    split.
    + intros n. rewrite H1. cbn [filter]. unfold named at 2. destruct (String.eqb_spec (v_name f) n) as [<-|Hne].
      * unfold get_or_empty at 1. rewrite (get_set_same _ str_eqb_spec). rewrite <- app_assoc. reflexivity.
      * unfold get_or_empty at 1. rewrite (get_set_other _ str_eqb_spec) by auto. reflexivity.
    + rewrite H2. rewrite <- app_assoc. reflexivity.
Qed.

Lemma process_functions_eq : forall fs m a m' a', process_functions fs (m, a) = (m', a') ->
  (forall n, get_or_empty String.eqb n m' = (get_or_empty String.eqb n m ++ filter (named n) fs)%list) /\ a' = (a ++ fs)%list.
Proof.
  intros fs m a m' a' E. assert (H := process_functions_spec fs m a). cbn zeta in H. rewrite E in H. exact H.
Qed.

Lemma registry_spec : forall sc ag wi n,
  scalar_by_name (new_registry sc ag wi) n = filter (named n) sc /\
  agg_by_name (new_registry sc ag wi) n = filter (named n) ag /\
  window_by_name (new_registry sc ag wi) n = filter (named n) wi /\
  all_functions (new_registry sc ag wi) = (sc ++ ag ++ wi)%list.
Proof.
  intros sc ag wi n. unfold new_registry.
  destruct (process_functions sc ([], [])) as [m1 a1] eqn:E1. apply process_functions_eq in E1 as [A1 A2].
  destruct (process_functions ag ([], a1)) as [m2 a2] eqn:E2. apply process_functions_eq in E2 as [B1 B2].
  destruct (process_functions wi ([], a2)) as [m3 a3] eqn:E3. apply process_functions_eq in E3 as [C1 C2].
  subst. unfold scalar_by_name, agg_by_name, window_by_name, all_functions. cbn [fr_scalar fr_agg fr_window fr_all].
  rewrite A1, B1, C1. rewrite <- app_assoc. auto.
Qed.

Lemma takes_count_spec : forall vo n, decides (fun f => takes_count vo f n) (fun f => takes vo f n).
Proof.
  intros vo n f. unfold takes_count, takes. rewrite orb_true_iff, Z.eqb_eq. destruct (vo f) as [v|].
  - unfold valid_count. rewrite andb_true_iff, orb_true_iff, !Z.leb_le, Z.eqb_eq. split.
    + intros [H|H]; [auto|]. right. exists v. auto.
    + intros [H|(v' & E & H)]; [auto|]. inversion E; subst. auto.
  - split; [intros [H|H]; [auto|discriminate]|]. intros [H|(v & E & _)]; [auto|discriminate].
Qed.

Lemma filter_filter : forall A (p q : A -> bool) l, filter p (filter q l) = filter (fun x => q x && p x) l.
Proof.
  intros A p q. induction l as [|x l IH]; [reflexivity|]. cbn. destruct (q x); cbn; [|auto].
  destruct (p x); rewrite IH; auto.
Qed.

Lemma by_count_spec : forall vo name n fs p,
  decides p (fun f => v_name f = name /\ takes vo f n) ->
  by_count vo (fun f => f) (filter (named name) fs) n = filter p fs.
Proof.
  intros vo name n fs p Hp. unfold by_count. rewrite filter_filter.
  eapply filter_ext_iff; [|exact Hp]. intros f. rewrite andb_true_iff. unfold named. rewrite String.eqb_eq.
  rewrite (takes_count_spec vo n f). tauto.
Qed.

(** ** identities *)

Lemma ext_id_eqb_iff : forall a b, ext_id_eqb a b = true <-> a = b.
Proof. intros. apply ext_id_eqb_spec. Qed.

Lemma last_colon : forall a b x y, no_char ":" x -> no_char ":" y ->
  a ++ ":" ++ x = b ++ ":" ++ y -> a = b /\ x = y.
Proof.
  intros a b x y Hx Hy H.
  assert (E : (chars a ++ ":"%char :: chars x = chars b ++ ":"%char :: chars y)%list).
  { apply (f_equal chars) in H. rewrite !chars_app in H. exact H. }
  unfold no_char in *. clear H.
  enough (chars a = chars b /\ chars x = chars y) as [H1 H2] by (split; apply chars_inj; auto).
  remember (chars a) as la. remember (chars b) as lb. remember (chars x) as lx. remember (chars y) as ly. clear - Hx Hy E.
  revert lb E. induction la as [|c la IH]; intros [|d lb] E; cbn in E.
  - injection E as E. auto.
  - injection E as E1 E2. exfalso. apply Hx. rewrite E2. apply in_or_app. right; left; auto.
  - injection E as E1 E2. exfalso. apply Hy. rewrite <- E2. apply in_or_app. right; left; auto.
  - injection E as E1 E2. destruct (IH lb E2) as [-> ->]. subst. auto.
Qed.

Lemma concat_no_char : forall c sep ws, Forall (no_char c) ws -> no_char c sep -> no_char c (String.concat sep ws).
Proof.
  intros c sep ws H Hs. induction H as [|w ws Hw H IH]; [intros []|].
  destruct ws as [|w' ws]; [exact Hw|]. rewrite concat_cons' by discriminate.
  unfold no_char in *. rewrite !chars_app. intros Hi. apply in_app_or in Hi as [Hi|Hi]; [auto|].
  apply in_app_or in Hi as [Hi|Hi]; auto.
Qed.

Lemma same_id_same_name : forall f d, variant_spelled f -> info_spelled d -> variant_id f = di_id d -> v_name f = di_name d.
Proof.
  intros f d Hf (sig & Hs & Hd) E. unfold variant_id in E. rewrite <- E in Hd. cbn in Hd.
  unfold compound_name, signature_key in Hd.
  apply last_colon in Hd; auto; [tauto|]. apply concat_no_char; auto. unfold no_char. cbn. intuition discriminate.
Qed.

(** ** localization *)

Lemma fname_eqb_spec : forall a b, fname_eqb a b = true <-> a = b.
Proof.
  intros [a|a] [b|b]; cbn; try (split; [discriminate|congruence]); rewrite String.eqb_eq; split; congruence.
Qed.

Lemma id_in_spec : forall id l, id_in id l = true <-> In id l.
Proof.
  intros. unfold id_in. rewrite existsb_exists. split.
  - intros (x & Hx & E). apply ext_id_eqb_iff in E. subst; auto.
  - intros H. exists id. split; auto. apply ext_id_eqb_iff; auto.
Qed.

Section Localize.
  Variable ds : list dinfo.
  Variable infos : fmap ext_id dinfo.
  Variable fs : list variant.
  Variable get : string -> list variant.
  Hypothesis ds_spelled : Forall info_spelled ds.
  Hypothesis fs_spelled : Forall variant_spelled fs.
  Hypothesis fs_nodup : NoDup (map variant_id fs).
  Hypothesis infos_spec : forall id d, fm_get ext_id_eqb id infos = Some d <-> In d ds /\ di_id d = id.
  Hypothesis get_spec : forall n, get n = filter (named n) fs.

  Definition pick1 (f : variant) : list lvar :=
    match fm_get ext_id_eqb (variant_id f) infos with Some d => [new_local_variant f d] | None => [] end.
  Definition pick (l : list variant) : list lvar := flat_map pick1 l.
  Definition pickn (n : string) : list lvar := pick (get n).

  Lemma pick_picks : forall l, picks ds l (pick l).
  Proof.
    induction l as [|f l IH]; cbn [pick flat_map]; [constructor|]. unfold pick1.
    destruct (fm_get ext_id_eqb (variant_id f) infos) as [d|] eqn:E.
    - apply infos_spec in E as [E1 E2]. cbn [app]. eapply Pk_take; eauto. split; auto.
    - cbn [app]. apply Pk_skip; auto. intros d Hd Hi.
      assert (fm_get ext_id_eqb (variant_id f) infos = Some d) by (apply infos_spec; auto). congruence.
  Qed.
  Lemma picks_pick : forall l vs, picks ds l vs -> vs = pick l.
  Proof.
    induction 1 as [|f d v l vs Hd [Hi Hv] H IH|f l vs Hn H IH]; cbn [pick flat_map]; [reflexivity|..].
    - unfold pick1. rewrite (proj2 (infos_spec (variant_id f) d)) by auto. rewrite Hv, IH. reflexivity.
    - unfold pick1. destruct (fm_get ext_id_eqb (variant_id f) infos) as [d|] eqn:E; [|auto].
      apply infos_spec in E as [E1 E2]. exfalso. eapply Hn; eauto.
  Qed.
  Lemma in_pick : forall v l, In v (pick l) <->
    exists f d, In f l /\ In d ds /\ di_id d = variant_id f /\ v = new_local_variant f d.
  Proof.
    intros v l. unfold pick. rewrite in_flat_map. unfold pick1. split.
    - intros (f & Hf & Hv). destruct (fm_get ext_id_eqb (variant_id f) infos) as [d|] eqn:E; [|destruct Hv].
      apply infos_spec in E as [E1 E2]. destruct Hv as [<-|[]]. exists f, d. auto.
    - intros (f & d & Hf & Hd & Hi & ->). exists f. split; auto.
      rewrite (proj2 (infos_spec (variant_id f) d)) by auto. left; auto.
  Qed.

  Lemma in_named : forall n f, In f (get n) <-> In f fs /\ v_name f = n.
  Proof. intros. rewrite get_spec, filter_In. unfold named. rewrite String.eqb_eq. tauto. Qed.

  Lemma name_of : forall f d, In f fs -> In d ds -> variant_id f = di_id d -> v_name f = di_name d.
  Proof.
    intros f d Hf Hd E. eapply same_id_same_name; eauto.
    - rewrite Forall_forall in fs_spelled. auto.
    - rewrite Forall_forall in ds_spelled. auto.
  Qed.

  Lemma nodup_map_filter : forall (p : variant -> bool) l, NoDup (map variant_id l) -> NoDup (map variant_id (filter p l)).
  Proof.
    induction l as [|f l IH]; cbn; intros H; [constructor|]. inversion H as [|? ? Hn Hl]; subst.
    destruct (p f); cbn; auto. constructor; auto. intros Hi. apply Hn. apply in_map_iff in Hi as (g & E & Hg).
    apply filter_In in Hg as [Hg _]. rewrite <- E. apply in_map; auto.
  Qed.

  Lemma same_variant : forall f g, In f fs -> In g fs -> variant_id f = variant_id g -> f = g.
  Proof.
    assert (forall l, NoDup (map variant_id l) -> forall f g, In f l -> In g l -> variant_id f = variant_id g -> f = g) as H.
    { induction l as [|x l IH]; cbn; intros Hn f g Hf Hg E; [destruct Hf|]. inversion Hn as [|? ? Hx Hl]; subst.
      destruct Hf as [->|Hf], Hg as [->|Hg]; auto.
      - exfalso. apply Hx. rewrite E. apply in_map; auto.
      - exfalso. apply Hx. rewrite <- E. apply in_map; auto. }
    intros; eapply H; eauto.
  Qed.

  (** the ids that are done once the names [ns] have been localized *)
  Definition is_done (ns : list string) (id : ext_id) : Prop :=
    exists f d, In f fs /\ In d ds /\ variant_id f = id /\ di_id d = id /\ In (v_name f) ns.

  Lemma localize_name_spec : forall l done,
    (forall f, In f l -> In (variant_id f) done -> False) -> NoDup (map variant_id l) ->
    let r := localize_name infos l done in
    fst r = pick l /\
    forall id, In id (snd r) <-> In id done \/ exists f d, In f l /\ In d ds /\ variant_id f = id /\ di_id d = id.
  Proof.
    assert (forall l out done,
      (forall f, In f l -> In (variant_id f) done -> False) -> NoDup (map variant_id l) ->
      let r := fold_left
        (fun st f =>
           let '(out, done) := st in
           if id_in (variant_id f) done then st
           else match fm_get ext_id_eqb (variant_id f) infos with
                | Some d => ((out ++ [new_local_variant f d])%list, variant_id f :: done)
                | None => st
                end) l (out, done) in
      fst r = (out ++ pick l)%list /\
      forall id, In id (snd r) <-> In id done \/ exists f d, In f l /\ In d ds /\ variant_id f = id /\ di_id d = id) as H.
    { induction l as [|f l IH]; intros out done Hf Hn; cbn [fold_left]; cbn zeta.
      - cbn. split; [rewrite app_nil_r; auto|]. intros id. split; [auto|]. intros [|(? & ? & [] & _)]; auto.
      - inversion Hn as [|? ? Hx Hl]; subst.
        assert (id_in (variant_id f) done = false) as ->.
        { destruct (id_in (variant_id f) done) eqn:E; auto. apply id_in_spec in E. exfalso. eapply Hf; eauto. left; auto. }
        cbn [pick flat_map]. unfold pick1. destruct (fm_get ext_id_eqb (variant_id f) infos) as [d|] eqn:E.
        + apply infos_spec in E as [E1 E2].
          destruct (IH (out ++ [new_local_variant f d])%list (variant_id f :: done)) as [H1 H2]; auto.
          { intros g Hg [Hi|Hi]; [|eapply Hf; eauto; right; auto]. apply Hx. rewrite Hi. apply in_map; auto. }
          split.
          * rewrite H1. rewrite <- app_assoc. reflexivity.
          * intros id. rewrite H2. split.
            -- intros [[<-|Hi]|(g & e & Hg & He)].
               ++ right. exists f, d. repeat split; auto. left; auto.
               ++ auto.
               ++ right. exists g, e. destruct He as (He1 & He2 & He3). repeat split; auto. right; auto.
            -- intros [Hi|(g & e & [->|Hg] & He1 & He2 & He3)].
               ++ left; right; auto.
               ++ left; left; auto.
               ++ right. exists g, e. auto.
        + destruct (IH out done) as [H1 H2]; auto.
          { intros g Hg Hi. eapply Hf; eauto. right; auto. }
          split.
          * rewrite H1. reflexivity.
          * intros id. rewrite H2. split.
            -- intros [Hi|(g & e & Hg & He1 & He2 & He3)]; [auto|]. right. exists g, e. repeat split; auto. right; auto.
            -- intros [Hi|(g & e & [->|Hg] & He1 & He2 & He3)]; [auto| |].
               ++ exfalso. assert (fm_get ext_id_eqb (variant_id g) infos = Some e) by (apply infos_spec; split; congruence). congruence.
               ++ right. exists g, e. auto. }
    intros l done H1 H2. unfold localize_name. apply (H l [] done H1 H2).
  Qed.

  Lemma localize_name_done : forall l done,
    (forall f d, In f l -> In d ds -> di_id d = variant_id f -> In (variant_id f) done) ->
    localize_name infos l done = ([], done).
  Proof.
    intros l done. unfold localize_name. induction l as [|f l IH]; intros H; cbn [fold_left]; [reflexivity|].
    destruct (id_in (variant_id f) done) eqn:E1; [apply IH; intros; eapply H; eauto; right; auto|].
    destruct (fm_get ext_id_eqb (variant_id f) infos) as [d|] eqn:E2; [|apply IH; intros; eapply H; eauto; right; auto].
    exfalso. apply infos_spec in E2 as [E2 E3]. assert (In (variant_id f) done) as Hi by (eapply H; eauto; left; auto).
    apply id_in_spec in Hi. congruence.
  Qed.

  Definition at_local (l : string) (v : lvar) : bool := String.eqb (lv_local v) l.

  Definition inv (ns : list string) (st : lstate) : Prop :=
    NoDup ns /\
    (forall id, In id (ls_done st) <-> is_done ns id) /\
    (forall n, In n ns -> pickn n <> []) /\
    (forall n, get_or_empty fname_eqb (FSub n) (ls_map st) = if in_dec string_dec n ns then pickn n else []) /\
    (forall l, get_or_empty fname_eqb (FLoc l) (ls_map st) = filter (at_local l) (flat_map pickn ns)) /\
    (forall l, fm_get fname_eqb (FLoc l) (ls_map st) = None <-> filter (at_local l) (flat_map pickn ns) = []) /\
    ls_slice st = flat_map pickn ns.

  Lemma add_local_keys_spec : forall vs m,
    (forall n, get_or_empty fname_eqb (FSub n) (add_local_keys vs m) = get_or_empty fname_eqb (FSub n) m) /\
    (forall l, get_or_empty fname_eqb (FLoc l) (add_local_keys vs m) =
               (get_or_empty fname_eqb (FLoc l) m ++ filter (at_local l) vs)%list) /\
    (forall l, fm_get fname_eqb (FLoc l) (add_local_keys vs m) = None <->
               fm_get fname_eqb (FLoc l) m = None /\ filter (at_local l) vs = []).
  Proof.
    unfold add_local_keys. induction vs as [|v vs IH]; intros m; cbn [fold_left].
    - repeat split; intros; cbn; rewrite ?app_nil_r; auto; tauto.
    - destruct (IH (add_to_map (FLoc (lv_local v)) [v] m)) as (H1 & H2 & H3). repeat split.
      + intros n. rewrite H1. unfold add_to_map, get_or_empty. rewrite (get_set_other _ fname_eqb_spec) by discriminate. reflexivity.
      + intros l. rewrite H2. cbn [filter]. unfold at_local at 2. destruct (String.eqb_spec (lv_local v) l) as [<-|Hne].
        * unfold add_to_map. unfold get_or_empty at 1. rewrite (get_set_same _ fname_eqb_spec). rewrite <- app_assoc. reflexivity.
        * unfold add_to_map. unfold get_or_empty at 1. rewrite (get_set_other _ fname_eqb_spec) by congruence. reflexivity.
      + apply H3 in H. destruct H as [Ha Hb]. unfold add_to_map in Ha.
        destruct (String.eqb_spec (lv_local v) l) as [<-|Hne].
        * rewrite (get_set_same _ fname_eqb_spec) in Ha. discriminate.
        * rewrite (get_set_other _ fname_eqb_spec) in Ha by congruence. auto.
      + apply H3 in H. destruct H as [Ha Hb]. unfold add_to_map in Ha. cbn [filter]. unfold at_local at 1.
        destruct (String.eqb_spec (lv_local v) l) as [<-|Hne].
        * rewrite (get_set_same _ fname_eqb_spec) in Ha. discriminate.
        * auto.
      + intros [Ha Hb]. apply H3. cbn [filter] in Hb. unfold at_local at 1 in Hb. unfold add_to_map.
        destruct (String.eqb_spec (lv_local v) l) as [<-|Hne]; [discriminate|].
        rewrite (get_set_other _ fname_eqb_spec) by congruence. auto.
  Qed.

  (** the step may go on: the declaration is available, and its name is either localized
      already or not taken as a local name *)
  Definition may (ns : list string) (d : dinfo) : Prop :=
    available fs d /\ (In (di_name d) ns \/ forall v, In v (flat_map pickn ns) -> lv_local v <> di_name d).

  Lemma filter_nil_iff : forall A (p : A -> bool) l, filter p l = [] <-> forall x, In x l -> p x = false.
  Proof.
    intros A p. induction l as [|x l IH]; cbn; [split; [intros _ ? []|auto]|]. destruct (p x) eqn:E.
    - split; [discriminate|]. intros H. specialize (H x (or_introl eq_refl)). congruence.
    - rewrite IH. split; [intros H y [<-|Hy]; auto|auto].
  Qed.

  Lemma step_spec : forall ns st d, inv ns st -> In d ds ->
    (may ns d /\ exists st', localize_step infos get st d = Ok st' /\
       inv (if in_dec string_dec (di_name d) ns then ns else ns ++ [di_name d])%list st') \/
    (~ may ns d /\ localize_step infos get st d = Err).
  Proof.
    intros ns st d (I1 & I2 & I3 & I4 & I5 & I6 & I7) Hd. unfold localize_step.
    assert (Hav : In (di_name d) ns -> (available fs d <-> In (di_id d) (ls_done st))).
    { intros Hn. split.
      - intros (f & Hf & E). apply I2. exists f, d. repeat split; auto. rewrite (name_of f d) by auto. auto.
      - intros H. apply I2 in H as (f & e & Hf & _ & E & _). exists f; auto. }
    destruct (fm_get fname_eqb (FLoc (di_name d)) (ls_map st)) as [x|] eqn:Eg.
    - assert (~ (forall v, In v (flat_map pickn ns) -> lv_local v <> di_name d)) as Hc.
      { intros H. assert (fm_get fname_eqb (FLoc (di_name d)) (ls_map st) = None); [|congruence].
        apply I6. apply filter_nil_iff. intros v Hv. unfold at_local. apply String.eqb_neq. auto. }
      destruct (id_in (di_id d) (ls_done st)) eqn:E.
      + apply id_in_spec in E. left.
        assert (In (di_name d) ns) as Hn.
        { apply I2 in E as (f & e & Hf & He & E1 & E2 & Hn). rewrite (name_of f d) in Hn; auto. }
        split.
        * split; [apply Hav; auto|auto].
        * exists st. split; auto. destruct (in_dec string_dec (di_name d) ns); [|contradiction].
          repeat split; try apply I2; try apply I6; auto.
      + right. split; auto. intros [H1 [H2|H2]]; [|auto]. apply Hav in H1; auto. apply id_in_spec in H1. congruence.
    - assert (forall v, In v (flat_map pickn ns) -> lv_local v <> di_name d) as Hc.
      { intros v Hv E. assert (filter (at_local (di_name d)) (flat_map pickn ns) = []) as H by (apply I6; auto).
        rewrite filter_nil_iff in H. apply H in Hv. unfold at_local in Hv. apply String.eqb_neq in Hv. auto. }
      destruct (in_dec string_dec (di_name d) ns) as [Hn|Hn].
      + rewrite localize_name_done.
        * destruct (id_in (di_id d) (ls_done st)) eqn:E; cbn [negb].
          -- apply id_in_spec in E. left. split; [split; [apply Hav; auto|auto]|].
             exists (LState (ls_done st) (ls_map st) (ls_slice st)). split; [reflexivity|].
             repeat split; cbn; try apply I2; try apply I6; auto.
          -- right. split; auto. intros [H1 _]. apply Hav in H1; auto. apply id_in_spec in H1. congruence.
        * intros f e Hf He E. apply in_named in Hf as [Hf Hnf]. apply I2. exists f, e. repeat split; auto. congruence.
      + assert (localize_name_ok : forall f, In f (get (di_name d)) -> In (variant_id f) (ls_done st) -> False).
        { intros f Hf Hi. apply in_named in Hf as [Hf Hnf]. apply I2 in Hi as (g & e & Hg & _ & E & _ & Hng).
          assert (g = f) by (apply same_variant; auto). subst g. congruence. }
        assert (NoDup (map variant_id (get (di_name d)))) as Hnd by (rewrite get_spec; apply nodup_map_filter; auto).
        destruct (localize_name_spec (get (di_name d)) (ls_done st) localize_name_ok Hnd) as [L1 L2].
        destruct (localize_name infos (get (di_name d)) (ls_done st)) as [vs done]. cbn [fst snd] in *. subst vs.
        fold (pickn (di_name d)).
        assert (In (di_id d) done <-> available fs d) as Hdone.
        { rewrite L2. split.
          - intros [H|(f & e & Hf & _ & E & _)].
            + exfalso. apply I2 in H as (f & e & Hf & He & E1 & E2 & Hnf). rewrite (name_of f d) in Hnf; auto.
            + apply in_named in Hf as [Hf _]. exists f. auto.
          - intros (f & Hf & E). right. exists f, d. repeat split; auto. apply in_named. split; auto. apply name_of; auto. }
        destruct (id_in (di_id d) done) eqn:E; cbn [negb].
        * apply id_in_spec in E. left. split; [split; [apply Hdone; auto|auto]|].
          destruct (pickn (di_name d)) as [|v0 vs0] eqn:Ep.
          { exfalso. apply Hdone in E as (f & Hf & E). assert (In (new_local_variant f d) (pickn (di_name d))) as Hi.
            { apply in_pick. exists f, d. repeat split; auto. apply in_named. split; auto. apply name_of; auto. }
            rewrite Ep in Hi. destruct Hi. }
          rewrite <- Ep. eexists. split; [reflexivity|].
          destruct (add_local_keys_spec (pickn (di_name d)) (add_to_map (FSub (di_name d)) (pickn (di_name d)) (ls_map st))) as (K1 & K2 & K3).
          assert (Hfl : flat_map pickn (ns ++ [di_name d])%list = (flat_map pickn ns ++ pickn (di_name d))%list).
          { rewrite flat_map_app. cbn. rewrite app_nil_r. reflexivity. }
          unfold inv. cbn [ls_done ls_map ls_slice]. rewrite Hfl.
          split; [|split; [|split; [|split; [|split; [|split]]]]].
          -- clear - I1 Hn. induction I1 as [|x ns Hx I1 IH]; cbn.
             ++ repeat constructor. intros [].
             ++ constructor; [|apply IH; intros H; apply Hn; right; auto]. intros Hi. apply in_app_or in Hi as [Hi|[<-|[]]]; auto. apply Hn; left; auto.
          -- intros id. rewrite L2, I2. split.
             ++ intros [(f & e & H1 & H2 & H3 & H4 & H5)|(f & e & Hf & He & H3 & H4)].
                ** exists f, e. repeat split; auto. apply in_or_app; auto.
                ** apply in_named in Hf as [Hf Hnf]. exists f, e. repeat split; auto. apply in_or_app. right; left; auto.
             ++ intros (f & e & H1 & H2 & H3 & H4 & H5). apply in_app_or in H5 as [H5|[H5|[]]].
                ** left. exists f, e. auto.
                ** right. exists f, e. repeat split; auto. apply in_named; auto.
          -- intros n Hi. apply in_app_or in Hi as [Hi|[<-|[]]]; [auto|]. rewrite Ep. discriminate.
          -- intros n. rewrite K1. unfold add_to_map. destruct (string_dec n (di_name d)) as [->|Hne].
             ++ unfold get_or_empty at 1. rewrite (get_set_same _ fname_eqb_spec). rewrite I4.
                destruct (in_dec string_dec (di_name d) ns); [contradiction|].
                destruct (in_dec string_dec (di_name d) (ns ++ [di_name d])) as [_|H]; [reflexivity|].
                exfalso. apply H. apply in_or_app. right; left; auto.
             ++ unfold get_or_empty at 1. rewrite (get_set_other _ fname_eqb_spec) by congruence.
                change (get_or_empty fname_eqb (FSub n) (ls_map st) = (if in_dec string_dec n (ns ++ [di_name d]) then pickn n else [])). rewrite I4.
                destruct (in_dec string_dec n ns) as [H|H], (in_dec string_dec n (ns ++ [di_name d])) as [H'|H']; auto.
                ** exfalso. apply H'. apply in_or_app; auto.
                ** exfalso. apply in_app_or in H' as [H'|[H'|[]]]; auto.
          -- intros l. rewrite K2. unfold add_to_map. unfold get_or_empty at 1.
             rewrite (get_set_other _ fname_eqb_spec) by discriminate.
             change (get_or_empty fname_eqb (FLoc l) (ls_map st) ++ filter (at_local l) (pickn (di_name d)) =
                     filter (at_local l) (flat_map pickn ns ++ pickn (di_name d)))%list.
             rewrite I5, filter_app. reflexivity.
          -- intros l. rewrite K3. unfold add_to_map. rewrite (get_set_other _ fname_eqb_spec) by discriminate.
             rewrite I6, filter_app. split; [intros [-> ->]; reflexivity|apply app_eq_nil].
          -- rewrite I7. reflexivity.
        * right. split; auto. intros [H1 _]. apply Hdone in H1. apply id_in_spec in H1. congruence.
  Qed.

  Definition next (ns : list string) (d : dinfo) : list string :=
    (if in_dec string_dec (di_name d) ns then ns else ns ++ [di_name d])%list.
  Fixpoint may_all (ns : list string) (order : list dinfo) : Prop :=
    match order with [] => True | d :: order' => may ns d /\ may_all (next ns d) order' end.
  Definition names_after (ns : list string) (order : list dinfo) : list string := fold_left next order ns.

  Lemma loop_spec : forall order ns st, inv ns st -> (forall d, In d order -> In d ds) ->
    (may_all ns order /\ exists st', localize_loop infos get order st = Ok st' /\ inv (names_after ns order) st') \/
    (~ may_all ns order /\ localize_loop infos get order st = Err).
  Proof.
    induction order as [|d order IH]; intros ns st Hi Ho; cbn [localize_loop may_all names_after fold_left].
    - left. split; [exact I|]. exists st. auto.
    - destruct (step_spec ns st d Hi (Ho d (or_introl eq_refl))) as [(Hm & st' & Hs & Hi')|[Hm Hs]]; rewrite Hs; cbn [bind].
      + destruct (IH (next ns d) st') as [(Hm' & st'' & Hl & Hi'')|[Hm' Hl]]; auto.
        * intros e He. apply Ho. right; auto.
        * left. split; [auto|]. exists st''. auto.
        * right. split; [|auto]. intros [_ H]. auto.
      + right. split; [|auto]. intros [H _]. auto.
  Qed.

  Lemma inv_init : inv [] (LState [] [] []).
  Proof.
    unfold inv. cbn. repeat split; auto; try (constructor; fail).
    - intros [].
    - intros (f & d & _ & _ & _ & _ & []).
  Qed.

  Lemma next_in : forall ns d n, In n (next ns d) <-> In n ns \/ n = di_name d.
  Proof.
    intros ns d n. unfold next. destruct (in_dec string_dec (di_name d) ns) as [H|H].
    - split; [auto|]. intros [|E]; [auto|subst; auto].
    - rewrite in_app_iff. cbn. intuition.
  Qed.
  Lemma names_after_in : forall order ns n, In n (names_after ns order) <-> In n ns \/ exists d, In d order /\ di_name d = n.
  Proof.
    unfold names_after. induction order as [|d order IH]; intros ns n; cbn [fold_left].
    - split; [auto|]. intros [|(d & [] & _)]; auto.
    - rewrite IH, next_in. split.
      + intros [[H|H]|(e & He & E)]; [auto|right; exists d; split; [left; auto|auto]|right; exists e; split; [right; auto|auto]].
      + intros [H|(e & [->|He] & E)]; [auto|auto|right; eauto].
  Qed.

  (** the whole walk, in terms of the declarations *)
  Lemma in_flat_picks : forall ns v, In v (flat_map pickn ns) <->
    exists f d, In f fs /\ In d ds /\ variant_id f = di_id d /\ In (di_name d) ns /\ v = new_local_variant f d.
  Proof.
    intros ns v. rewrite in_flat_map. split.
    - intros (n & Hn & Hv). apply in_pick in Hv as (f & d & Hf & Hd & E & ->). apply in_named in Hf as [Hf Hnf].
      exists f, d. repeat split; auto. rewrite <- (name_of f d) by auto. congruence.
    - intros (f & d & Hf & Hd & E & Hn & ->). exists (di_name d). split; auto. apply in_pick. exists f, d.
      repeat split; auto. apply in_named. split; auto. apply name_of; auto.
  Qed.

  Lemma may_all_spec : forall order ns,
    may_all ns order <->
    forall pre d post, order = (pre ++ d :: post)%list -> may (names_after ns pre) d.
  Proof.
    induction order as [|d order IH]; intros ns; cbn [may_all].
    - split; [|auto]. intros _ pre d post E. destruct pre; discriminate.
    - rewrite IH. split.
      + intros [H1 H2] pre e post E. destruct pre as [|x pre]; cbn in E; inversion E; subst; [exact H1|].
        cbn [names_after fold_left]. eapply H2; eauto.
      + intros H. split; [apply (H [] d order eq_refl)|]. intros pre e post ->. apply (H (d :: pre) e post eq_refl).
  Qed.

  Lemma walk_spec : forall order, Permutation order ds ->
    may_all [] order <-> (forall d, In d ds -> available fs d) /\ order_ok order.
  Proof.
    intros order Hp. rewrite may_all_spec.
    assert (forall x, In x order <-> In x ds) as Hio.
    { intros x. split; apply Permutation_in; auto using Permutation_sym. }
    split.
    - intros H. assert (forall d, In d ds -> available fs d) as Hav.
      { intros d Hd. apply Hio in Hd. apply in_split in Hd as (pre & post & ->).
        destruct (H pre d post eq_refl). auto. }
      split; [exact Hav|]. intros pre d post E (e & e' & He & He' & En & El).
      destruct (H pre d post E) as [_ [Hn|Hl]].
      + apply names_after_in in Hn as [[]|(x & Hx & Ex)]. exists x; auto.
      + exfalso. apply Hio in He'. destruct (Hav e' He') as (f & Hf & Ef).
        eapply (Hl (new_local_variant f e')); [|exact El]. apply in_flat_picks. exists f, e'. repeat split; auto.
        apply names_after_in. right. exists e. auto.
    - intros [Hav Ho] pre d post E. split.
      + apply Hav. apply Hio. rewrite E. apply in_or_app. right; left; auto.
      + destruct (in_dec string_dec (di_name d) (names_after [] pre)) as [Hn|Hn]; [auto|]. right.
        intros v Hv El. apply in_flat_picks in Hv as (f & e' & Hf & He' & Ef & Hn' & ->). cbn in El.
        apply names_after_in in Hn' as [[]|(e & He & Ee)].
        destruct (Ho pre d post E) as (x & Hx & Ex).
        * exists e, e'. repeat split; auto. apply Hio; auto.
        * apply Hn. apply names_after_in. right. exists x; auto.
  Qed.

  Lemma localize_spec : forall order, Permutation order ds ->
    let ok := (forall d, In d ds -> available fs d) /\ order_ok order in
    (ok /\ exists m slice, localize infos get order = Ok (m, slice) /\
       (forall n, get_or_empty fname_eqb (FSub n) m = pickn n) /\
       (forall l, get_or_empty fname_eqb (FLoc l) m = filter (at_local l) slice) /\
       Permutation slice (pick fs)) \/
    (~ ok /\ localize infos get order = Err).
  Proof.
    intros order Hp. cbn zeta. rewrite <- (walk_spec order Hp). unfold localize.
    destruct (loop_spec order [] _ inv_init) as [(Hm & st & Hl & Hi)|[Hm Hl]].
    - intros d Hd. eapply Permutation_in; eauto.
    - rewrite Hl. cbn [bind]. left. split; auto. exists (ls_map st), (ls_slice st). split; [reflexivity|].
      destruct Hi as (I1 & I2 & I3 & I4 & I5 & I6 & I7). apply (walk_spec order Hp) in Hm as [Hav Ho].
      assert (Hempty : forall n, ~ In n (names_after [] order) -> pickn n = []).
      { intros n Hn. destruct (pickn n) as [|v l] eqn:E; [reflexivity|]. exfalso. apply Hn.
        assert (In v (pickn n)) as Hv by (rewrite E; left; auto).
        apply in_pick in Hv as (f & d & Hf & Hd & Ei & ->). apply in_named in Hf as [Hf Hnf].
        apply names_after_in. right. exists d. split; [eapply Permutation_in; [apply Permutation_sym; eauto|auto]|].
        rewrite <- (name_of f d) by auto. auto. }
      split; [|split].
      + intros n. rewrite I4. destruct (in_dec string_dec n (names_after [] order)); auto. symmetry. auto.
      + intros l. rewrite I5, I7. reflexivity.
      + rewrite I7. clear - I1 Hempty get_spec.
        (* group the registry by name *)
        remember (names_after [] order) as ns. clear Heqns.
        assert (forall g, (forall f, In f g -> In f fs) -> Permutation (flat_map (fun n => pick (filter (named n) g)) ns) (pick g)) as H.
        { induction g as [|f g IH]; intros Hg.
          - cbn. clear. induction ns; cbn; auto.
          - specialize (IH (fun x Hx => Hg x (or_intror Hx))).
            cbn [pick flat_map]. transitivity (pick1 f ++ flat_map (fun n => pick (filter (named n) g)) ns)%list.
            2:{ apply Permutation_app_head. exact IH. }
            clear IH.
            destruct (pick1 f) as [|v [|v' vs]] eqn:Ep.
            + cbn. clear - Ep. induction ns as [|n ns IH]; cbn [flat_map]; [constructor|]. cbn [filter].
              destruct (named n f); cbn [pick flat_map]; rewrite ?Ep; apply Permutation_app; auto.
            + assert (In (v_name f) ns) as Hi.
              { destruct (in_dec string_dec (v_name f) ns); auto. exfalso.
                assert (In v (pickn (v_name f))) as Hv.
                { unfold pickn, pick. apply in_flat_map. exists f. split; [|rewrite Ep; left; auto].
                  rewrite get_spec. apply filter_In. split; [apply Hg; left; auto|]. unfold named. apply String.eqb_refl. }
                rewrite Hempty in Hv by auto. destruct Hv. }
              apply in_split in Hi as (n1 & n2 & ->).
              assert (~ In (v_name f) n1 /\ ~ In (v_name f) n2) as [N1 N2].
              { apply NoDup_remove in I1 as [_ I1]. split; intros Hi; apply I1; apply in_or_app; auto. }
              rewrite !flat_map_app. cbn [flat_map].
              assert (forall l, ~ In (v_name f) l -> flat_map (fun n => pick (filter (named n) (f :: g))) l = flat_map (fun n => pick (filter (named n) g)) l) as Hsk.
              { induction l as [|n l IHl]; cbn [flat_map]; intros Hl; [reflexivity|]. f_equal.
                - cbn [filter]. unfold named at 1. destruct (String.eqb_spec (v_name f) n); [|reflexivity]. exfalso. apply Hl. left; auto.
                - apply IHl. intros Hx. apply Hl. right; auto. }
              rewrite !Hsk by auto. cbn [filter]. unfold named at 2. rewrite String.eqb_refl.
              cbn [pick flat_map]. rewrite Ep. cbn [app]. rewrite Permutation_app_comm. cbn [app].
              apply perm_skip. rewrite Permutation_app_comm. reflexivity.
            + exfalso. unfold pick1 in Ep. destruct (fm_get ext_id_eqb (variant_id f) infos); discriminate. }
        rewrite <- (H fs (fun _ h => h)). clear H. induction ns as [|n ns IH]; cbn [flat_map]; [constructor|].
        inversion I1; subst. unfold pickn at 1. rewrite get_spec. apply Permutation_app_head.
        assert (forall l, flat_map pickn l = flat_map (fun n => pick (filter (named n) fs)) l) as ->; [|reflexivity].
        induction l as [|x l IHl]; cbn; [reflexivity|]. unfold pickn at 1. rewrite get_spec, IHl. reflexivity.
    - rewrite Hl. cbn [bind]. right. auto.
  Qed.
End Localize.

(** no conflict: every order will do; a conflict: some order fails *)
Lemma order_ok_no_conflict : forall ds, (forall order, Permutation order ds -> order_ok order) <-> ~ conflict ds.
Proof.
  intros ds. split.
  - intros H (d & e & Hd & He & El & En).
    destruct (in_split _ _ Hd) as (l1 & l2 & ->).
    assert (In e (l1 ++ l2)) as He'.
    { apply in_app_or in He as [He|[->|He]]; [apply in_or_app; auto|contradiction|apply in_or_app; auto]. }
    destruct (in_split _ _ He') as (m1 & m2 & Em).
    assert (Permutation (d :: e :: m1 ++ m2) (l1 ++ d :: l2)) as Hp.
    { rewrite <- Permutation_middle. apply perm_skip. rewrite Em. apply Permutation_middle. }
    destruct (H _ Hp [d] e (m1 ++ m2)%list eq_refl) as (x & [->|[]] & Ex); [|congruence].
    exists d, d. repeat split; auto; left; auto.
  - intros Hc order Hp pre d post E (e & e' & He & He' & En & El).
    exists e. split; auto. destruct (string_dec (di_name e) (di_name d)) as [|Hne]; auto. exfalso. apply Hc.
    exists e', d. repeat split; auto.
    + eapply Permutation_in; eauto.
    + eapply Permutation_in; eauto. rewrite E. apply in_or_app. right; left; auto.
    + congruence.
Qed.

(** ** C50: loading *)

Lemma strip_prefix_spec : forall p s r, strip_prefix p s = Some r <-> s = p ++ r.
Proof.
  induction p as [|a p IH]; intros s r; cbn [strip_prefix append].
  - split; congruence.
  - destruct s as [|b s]; [split; discriminate|]. destruct (Ascii.eqb_spec a b).
    + subst. rewrite IH. split; [intros ->; auto|intros E; inversion E; auto].
    + split; [discriminate|]. intros E; inversion E; congruence.
Qed.

Lemma nonempty_spec : forall s, nonempty s = true <-> s <> "".
Proof. destruct s; cbn; split; congruence. Qed.

Lemma supported_spec : forall w, is_supported_type w = true <-> exists k, In w (kind_names k).
Proof.
  intros w. unfold is_supported_type. destruct (base_type w) as [t|] eqn:E.
  - apply base_type_iff in E as (k & Hk & _). split; eauto.
  - split; [discriminate|]. intros [k Hk]. apply base_type_complete in Hk. congruence.
Qed.

Lemma kind_names_not_any : forall k r, ~ In ("any" ++ r) (kind_names k).
Proof.
  intros k r. destruct k as [p|f| | | | | |]; [destruct p|destruct f|..]; cbn; intuition discriminate.
Qed.
Lemma kind_names_not_empty : forall k, ~ In "" (kind_names k).
Proof. intros k H. apply base_type_complete in H. vm_compute in H. discriminate. Qed.

Lemma fix_word_spec : forall w x b, fix_word w = Ok (x, b) <-> kept_word w x /\ (b = true <-> exists r, w = "any" ++ r).
Proof.
  intros w x b. unfold fix_word. destruct (strip_prefix "any" w) as [r|] eqn:E.
  - apply strip_prefix_spec in E. subst w. split.
    + intros H; inversion H; subst. split; [constructor|]. split; eauto.
    + intros [H1 H2]. assert (b = true) as -> by (apply H2; eauto). inversion H1 as [r' E1|E1|w' k Hk E1 E2]; subst; auto.
      exfalso. eapply kind_names_not_any; eauto.
  - assert (forall r, w <> "any" ++ r) as Hn.
    { intros r Hr. apply strip_prefix_spec in Hr. congruence. }
    destruct (nonempty w && negb (is_supported_type w)) eqn:E2.
    + apply andb_true_iff in E2 as [E2 E3]. apply nonempty_spec in E2. apply negb_true_iff in E3.
      split; [discriminate|]. intros [H1 _]. inversion H1 as [r' E1|E1|w' k Hk E1 E4]; subst.
      * exfalso. eapply Hn; eauto.
      * contradiction.
      * assert (is_supported_type x = true) by (apply supported_spec; eauto). congruence.
    + split.
      * intros H; inversion H; subst. split; [|split; [discriminate|intros [r Hr]; exfalso; eapply Hn; eauto]].
        apply andb_false_iff in E2 as [E2|E2].
        -- destruct x; [constructor|discriminate].
        -- apply negb_false_iff in E2. apply supported_spec in E2 as [k Hk]. econstructor; eauto.
      * intros [H1 H2]. assert (b = false) as ->.
        { destruct b; auto. destruct (proj1 H2 eq_refl) as [r Hr]. exfalso. eapply Hn; eauto. }
        inversion H1 as [r' E1|E1|w' k Hk E1 E4]; subst; auto. exfalso. eapply Hn; eauto.
Qed.
Lemma fix_word_no_panic : forall w, fix_word w <> Panic.
Proof. intros w. unfold fix_word. destruct (strip_prefix "any" w); [discriminate|]. destruct (_ && _); discriminate. Qed.

Lemma split_on_us : forall s, split_on "_" s = split_us s.
Proof. intros s. symmetry. apply (spells_on_split "_"%char). apply (split_us_spells s). Qed.

Lemma kept_word_unique : forall w x y, kept_word w x -> kept_word w y -> x = y.
Proof.
  intros w x y H H'.
  assert (Hx : exists b, fix_word w = Ok (x, b)).
  { destruct (strip_prefix "any" w) as [r|] eqn:E.
    - exists true. apply fix_word_spec. split; auto. apply strip_prefix_spec in E. split; eauto.
    - exists false. apply fix_word_spec. split; auto. split; [discriminate|]. intros [r Hr]. apply strip_prefix_spec in Hr. congruence. }
  assert (Hy : exists b, fix_word w = Ok (y, b)).
  { destruct (strip_prefix "any" w) as [r|] eqn:E.
    - exists true. apply fix_word_spec. split; auto. apply strip_prefix_spec in E. split; eauto.
    - exists false. apply fix_word_spec. split; auto. split; [discriminate|]. intros [r Hr]. apply strip_prefix_spec in Hr. congruence. }
  destruct Hx, Hy. congruence.
Qed.

Lemma fix_kernel_spec : forall k,
  fix_kernel k <> Panic /\ forall k', fix_kernel k = Ok k' <-> kept_kernel k k'.
Proof.
  intros k. unfold fix_kernel. split.
  - destruct (mapM fix_word (split_on "_" k)) as [ws| |] eqn:E; cbn; [destruct (existsb snd ws); discriminate|discriminate|].
    exfalso. revert E. apply mapM_no_panic, fix_word_no_panic.
  - intros k'. rewrite split_on_us.
    assert (forall ws l, mapM fix_word ws = Ok l -> Forall2 kept_word ws (map fst l) /\ (existsb snd l = false -> map fst l = ws)) as Hf.
    { induction ws as [|w ws IH]; intros l H; cbn [mapM] in H.
      - inversion H; subst. split; [constructor|reflexivity].
      - destruct (fix_word w) as [[x b]| |] eqn:E; try discriminate. destruct (mapM fix_word ws) as [l'| |]; try discriminate.
        inversion H; subst. destruct (IH l' eq_refl) as [I1 I2]. apply fix_word_spec in E as [E1 E2]. cbn [map fst existsb snd].
        split; [constructor; auto|]. intros Hb. apply orb_false_iff in Hb as [Hb1 Hb2]. rewrite I2 by auto. f_equal.
        inversion E1 as [r|E|w' kk Hk]; subst; auto. assert (false = true) by (apply E2; eauto). discriminate. }
    split.
    + intros H. unb H. destruct (Hf _ _ E) as [H1 H2].
      exists (split_us k), (map fst a). split; [apply split_us_spells|]. split; [auto|].
      destruct (existsb snd a); inversion H; subst; [reflexivity|]. rewrite H2 by auto. apply split_us_spells.
    + intros (ws & ws' & Hs & Hk & ->). apply spells_split in Hs. subst ws.
      assert (exists l, mapM fix_word (split_us k) = Ok l /\ map fst l = ws') as (l & Hl & <-).
      { clear - Hk. induction Hk as [|w w' ws ws' Hw Hk IH]; [exists []; auto|]. destruct IH as (l & Hl & <-).
        cbn [mapM]. assert (exists b, fix_word w = Ok (w', b)) as [b Hb].
        { destruct (strip_prefix "any" w) as [r|] eqn:E.
          - exists true. apply fix_word_spec. split; auto. apply strip_prefix_spec in E. split; eauto.
          - exists false. apply fix_word_spec. split; auto. split; [discriminate|]. intros [r Hr]. apply strip_prefix_spec in Hr. congruence. }
        rewrite Hb, Hl. eexists; split; [reflexivity|]. reflexivity. }
      rewrite Hl. cbn [bind]. destruct (existsb snd l) eqn:E; [reflexivity|].
      destruct (Hf _ _ Hl) as [_ H2]. rewrite H2 by auto. f_equal. apply split_us_spells.
Qed.

Lemma kind_names_no_colon : forall k w, In w (kind_names k) -> no_char ":" w.
Proof.
  intros k w H. destruct k as [p|f| | | | | |]; [destruct p|destruct f|..]; cbn in H; unfold no_char;
    repeat (destruct H as [H|H]; [subst w; cbn; intuition discriminate|]); destruct H.
Qed.
Lemma kept_kernel_no_colon : forall k k', kept_kernel k k' -> no_char ":" k'.
Proof.
  intros k k' (ws & ws' & _ & Hk & ->). apply concat_no_char; [|unfold no_char; cbn; intuition discriminate].
  induction Hk as [|w w' ws ws' Hw Hk IH]; constructor; auto.
  inversion Hw as [r|E|w'' kk Hi]; subst; [unfold no_char; cbn; intuition discriminate|intros []|eapply kind_names_no_colon; eauto].
Qed.

Lemma dotted_spec : forall s p n, split_on "." s = [p; n] <-> dotted s p n.
Proof.
  intros s p n. unfold dotted. split.
  - intros E. symmetry in E. apply spells_on_split in E as (_ & H & ->). inversion H as [|? ? H1 H2]; subst. inversion H2; subst. auto.
  - intros (H1 & H2 & ->). symmetry. apply spells_on_split. split; [discriminate|]. split; [repeat constructor; auto|reflexivity].
Qed.

Lemma fm_get_deps : forall (deps : fmap string string) p, NoDup (fm_keys deps) ->
  forall u, fm_get String.eqb p deps = Some u <-> In (p, u) deps.
Proof.
  intros deps p Hn u. split; [apply fm_get_in|]. apply (in_get _ str_eqb_spec); auto.
Qed.

Definition fixed_func (f g : dfunc) : Prop :=
  df_name g = df_name f /\ df_local g = df_local f /\ df_infix g = df_infix f /\ df_postfix g = df_postfix f /\
  df_options g = df_options f /\ Forall2 kept_kernel (df_kernels f) (df_kernels g).

Lemma validate_function_spec : forall deps f, NoDup (fm_keys deps) ->
  (func_ok deps f /\ exists g, validate_function deps f = Ok g /\ fixed_func f g) \/
  (~ func_ok deps f /\ validate_function deps f = Err).
Proof.
  intros deps f Hn. unfold validate_function, func_ok.
  destruct (negb (nonempty (df_name f)) || Nat.eqb (List.length (df_kernels f)) 0) eqn:E1.
  - right. split; [|reflexivity]. intros (H1 & (p & n & u & (_ & _ & Hd) & _) & _).
    apply orb_true_iff in E1 as [E1|E1].
    + apply negb_true_iff in E1. rewrite Hd in E1. destruct p; discriminate.
    + apply Nat.eqb_eq in E1. destruct (df_kernels f); [contradiction|discriminate].
  - apply orb_false_iff in E1 as [E1 E2]. apply Nat.eqb_neq in E2.
    destruct (split_on "." (df_name f)) as [|p [|n [|x l]]] eqn:Es.
    1,2,4: right; split; [|reflexivity]; intros (_ & (p' & n' & u & Hd & _) & _); apply dotted_spec in Hd; congruence.
    apply dotted_spec in Es. destruct (fm_get String.eqb p deps) as [u|] eqn:Eg.
    + apply fm_get_deps in Eg; auto.
      destruct (mapM fix_kernel (df_kernels f)) as [ks| |] eqn:Em; cbn [bind].
      * left. apply (mapM_ok_forall2 _ _ _ _ (fun k => proj2 (fix_kernel_spec k))) in Em. split.
        -- split; [intros H; rewrite H in E2; apply E2; reflexivity|]. split; [eauto 6|].
           clear - Em. induction Em as [|k k' ks ks' Hk Em IH]; intros x Hx; [destruct Hx|].
           destruct Hx as [<-|Hx]; eauto.
        -- eexists. split; [reflexivity|]. repeat split; auto.
      * right. split; [|reflexivity]. intros (_ & _ & H).
        assert (exists ks, mapM fix_kernel (df_kernels f) = Ok ks) as [ks Hk]; [|congruence].
        clear - H. induction (df_kernels f) as [|k ks IH]; [eexists; reflexivity|]. cbn [mapM].
        destruct (H k (or_introl eq_refl)) as [k' Hk]. apply fix_kernel_spec in Hk. rewrite Hk.
        destruct IH as [l Hl]; [intros; apply H; right; auto|]. rewrite Hl. eexists; reflexivity.
      * exfalso. revert Em. apply mapM_no_panic. intros k. apply fix_kernel_spec.
    + right. split; [|reflexivity]. intros (_ & (p' & n' & u & Hd & Hi) & _).
      apply dotted_spec in Hd. apply dotted_spec in Es. rewrite Hd in Es. inversion Es; subst.
      apply fm_get_deps in Hi; auto. congruence.
Qed.

Lemma mapM_outcome : forall A B (f : A -> res B) (P : A -> Prop) (Q : A -> B -> Prop),
  (forall a, (P a /\ exists b, f a = Ok b /\ Q a b) \/ (~ P a /\ f a = Err)) ->
  forall l, ((forall a, In a l -> P a) /\ exists m, mapM f l = Ok m /\ Forall2 Q l m) \/
            (~ (forall a, In a l -> P a) /\ mapM f l = Err).
Proof.
  intros A B f P Q H. induction l as [|a l IH]; cbn [mapM].
  - left. split; [intros ? []|]. eexists; split; [reflexivity|constructor].
  - destruct (H a) as [(Hp & b & -> & Hq)|[Hp ->]].
    + destruct IH as [(Hl & m & -> & Hm)|[Hl ->]].
      * left. split; [intros x [<-|Hx]; auto|]. eexists; split; [reflexivity|constructor; auto].
      * right. split; [|reflexivity]. intros Hx. apply Hl. intros; apply Hx; right; auto.
    + right. split; [|reflexivity]. intros Hx. apply Hp. apply Hx. left; auto.
Qed.

Lemma length_zero : forall A (l : list A), Nat.eqb (List.length l) 0 = true <-> l = [].
Proof. intros A [|x l]; cbn; split; congruence. Qed.

Definition fixed_file (d d' : dfile) : Prop :=
  dl_types d' = dl_types d /\ dl_deps d' = dl_deps d /\
  Forall2 fixed_func (dl_scalar d) (dl_scalar d') /\ Forall2 fixed_func (dl_agg d) (dl_agg d') /\
  Forall2 fixed_func (dl_window d) (dl_window d').

Lemma validate_file_spec : forall d, NoDup (fm_keys (dl_deps d)) ->
  (file_ok d /\ exists d', validate_file d = Ok d' /\ fixed_file d d') \/
  (~ file_ok d /\ validate_file d = Err).
Proof.
  intros d Hn. unfold validate_file, file_ok.
  destruct (Nat.eqb (List.length (dl_types d)) 0) eqn:E1.
  { apply length_zero in E1. right. split; [|reflexivity]. intros (H & _). auto. }
  assert (dl_types d <> []) as Ht by (intros H; apply length_zero in H; congruence).
  destruct (Nat.eqb (List.length (dl_scalar d)) 0 && Nat.eqb (List.length (dl_agg d)) 0 && Nat.eqb (List.length (dl_window d)) 0) eqn:E2.
  { apply andb_true_iff in E2 as [E2 E4]. apply andb_true_iff in E2 as [E2 E3].
    apply length_zero in E2, E3, E4. right. split; [|reflexivity]. intros (_ & H & _). intuition. }
  assert (dl_scalar d <> [] \/ dl_agg d <> [] \/ dl_window d <> []) as Hf.
  { destruct (dl_scalar d); [|left; discriminate]. destruct (dl_agg d); [|right; left; discriminate].
    destruct (dl_window d); [discriminate|]. right; right; discriminate. }
  assert (Hv := mapM_outcome _ _ (validate_function (dl_deps d)) (func_ok (dl_deps d)) fixed_func
                  (fun f => validate_function_spec (dl_deps d) f Hn)).
  destruct (Hv (dl_scalar d)) as [(H1 & sc & -> & F1)|[H1 ->]]; cbn [bind];
    [|right; split; [|reflexivity]; intros (_ & _ & H); apply H1; auto].
  destruct (Hv (dl_agg d)) as [(H2 & ag & -> & F2)|[H2 ->]]; cbn [bind];
    [|right; split; [|reflexivity]; intros (_ & _ & H); apply H2; auto].
  destruct (Hv (dl_window d)) as [(H3 & wi & -> & F3)|[H3 ->]]; cbn [bind];
    [|right; split; [|reflexivity]; intros (_ & _ & H); apply H3; auto].
  left. split; [split; [auto|split; [auto|]]; intros f [H|[H|H]]; auto|].
  eexists. split; [reflexivity|]. repeat split; auto.
Qed.

Lemma function_infos_spec : forall deps f g, NoDup (fm_keys deps) -> func_ok deps f -> fixed_func f g ->
  exists is, function_infos deps g = Ok is /\ Forall2 (info_of deps f) (df_kernels f) is.
Proof.
  intros deps f g Hn (_ & (p & n & u & Hd & Hu) & _) (G1 & G2 & G3 & G4 & G5 & G6).
  unfold function_infos, urn_and_name. rewrite G1. rewrite (proj2 (dotted_spec _ _ _) Hd).
  rewrite (proj2 (fm_get_deps deps p Hn u) Hu). cbn [bind]. eexists. split; [reflexivity|].
  induction G6 as [|k k' ks ks' Hk G6 IH]; cbn [map]; constructor; auto.
  exists p, n, u, k'. cbn. split; [auto|]. split; [auto|]. split; [auto|]. split; [reflexivity|]. split; [reflexivity|].
  split.
  - rewrite G2. destruct (string_dec (df_local f) "") as [->|Hne]; [reflexivity|].
    rewrite (proj2 (nonempty_spec _) Hne). reflexivity.
  - unfold get_options, get_notation. rewrite G3, G4, G5. auto.
Qed.

Lemma fold_infos_get : forall l m id d,
  fm_get ext_id_eqb id (fold_left (fun m i => fm_set ext_id_eqb (di_id i) i m) l m) = Some d <->
  last_with id d l \/ (forall j, In j l -> di_id j <> id) /\ fm_get ext_id_eqb id m = Some d.
Proof.
  induction l as [|i l IH]; intros m id d; cbn [fold_left].
  - split; [intros H; right; split; [intros ? []|auto]|]. intros [(l1 & l2 & E & _)|[_ H]]; [destruct l1; discriminate|auto].
  - rewrite IH. split.
    + intros [(l1 & l2 & -> & H1 & H2)|[H1 H2]].
      * left. exists (i :: l1), l2. auto.
      * destruct (ext_id_eqb (di_id i) id) eqn:E.
        -- apply ext_id_eqb_iff in E. subst id. rewrite (get_set_same _ ext_id_eqb_iff) in H2. inversion H2; subst.
           left. exists [], l. auto.
        -- right. assert (di_id i <> id) as Hne by (intros H; apply ext_id_eqb_iff in H; congruence). split.
           ++ intros j [<-|Hj]; auto.
           ++ rewrite (get_set_other _ ext_id_eqb_iff) in H2 by auto. auto.
    + intros [(l1 & l2 & E & H1 & H2)|[H1 H2]].
      * destruct l1 as [|x l1]; cbn in E; inversion E; subst.
        -- right. split; auto. apply (get_set_same _ ext_id_eqb_iff).
        -- left. exists l1, l2. auto.
      * right. split; [intros; apply H1; right; auto|]. rewrite (get_set_other _ ext_id_eqb_iff); auto.
        intros E. eapply H1; [left; reflexivity|auto].
Qed.
Lemma fold_infos_nodup : forall l m, NoDup (fm_keys m) ->
  NoDup (fm_keys (fold_left (fun m i => fm_set ext_id_eqb (di_id i) i m) l m)).
Proof.
  induction l as [|i l IH]; intros m H; cbn [fold_left]; auto. apply IH. apply nodup_set; auto. apply ext_id_eqb_iff.
Qed.

(** the map of one kind: for every identity the last declaration *)
Definition info_map (deps : list (string * string)) (fs : list dfunc) (m : fmap ext_id dinfo) : Prop :=
  NoDup (fm_keys m) /\
  exists l, file_infos deps fs l /\ forall id d, In (id, d) m <-> last_with id d l.

Lemma build_infos_spec : forall deps fs gs, NoDup (fm_keys deps) ->
  (forall f, In f fs -> func_ok deps f) -> Forall2 fixed_func fs gs ->
  exists m, build_infos deps gs = Ok m /\ info_map deps fs m.
Proof.
  intros deps fs gs Hn Hok HF. unfold build_infos.
  assert (exists ls, mapM (function_infos deps) gs = Ok ls /\ file_infos deps fs (List.concat ls)) as (ls & -> & Hl).
  { induction HF as [|f g fs gs Hg HF IH]; [exists []; split; [reflexivity|constructor]|].
    destruct (function_infos_spec deps f g Hn (Hok f (or_introl eq_refl)) Hg) as (is & H1 & H2).
    destruct IH as (ls & H3 & H4); [intros; apply Hok; right; auto|].
    cbn [mapM]. rewrite H1, H3. eexists. split; [reflexivity|]. cbn [List.concat]. constructor; auto. }
  cbn [bind]. eexists. split; [reflexivity|]. split.
  - apply fold_infos_nodup. constructor.
  - exists (List.concat ls). split; auto. intros id d.
    assert (Hnd := fold_infos_nodup (List.concat ls) [] (NoDup_nil _)).
    split.
    + intros H. apply (in_get _ ext_id_eqb_iff) in H; auto. apply fold_infos_get in H as [H|[_ H]]; [auto|discriminate].
    + intros H. apply (get_some_in _ ext_id_eqb_iff). apply fold_infos_get. auto.
Qed.

Lemma load_spec : forall d, NoDup (fm_keys (dl_deps d)) ->
  (file_ok d /\ exists x, load_dialect d = Ok x /\ d_types x = dl_types d /\
     info_map (dl_deps d) (dl_scalar d) (d_scalar x) /\ info_map (dl_deps d) (dl_agg d) (d_agg x) /\
     info_map (dl_deps d) (dl_window d) (d_window x)) \/
  (~ file_ok d /\ load_dialect d = Err).
Proof.
  intros d Hn. unfold load_dialect. destruct (validate_file_spec d Hn) as [(Hok & d' & -> & F1 & F2 & F3 & F4 & F5)|[Hok ->]]; cbn [bind].
  - left. split; auto. rewrite F2. destruct Hok as (_ & _ & Hf).
    destruct (build_infos_spec (dl_deps d) (dl_scalar d) (dl_scalar d') Hn) as (m1 & -> & M1); auto.
    destruct (build_infos_spec (dl_deps d) (dl_agg d) (dl_agg d') Hn) as (m2 & -> & M2); auto.
    destruct (build_infos_spec (dl_deps d) (dl_window d) (dl_window d') Hn) as (m3 & -> & M3); auto.
    cbn [bind]. eexists. split; [reflexivity|]. cbn. auto.
  - right. auto.
Qed.

Lemma file_infos_spelled : forall deps fs l, file_infos deps fs l -> Forall info_spelled l.
Proof.
  intros deps fs l H. induction H as [|f fs is is' Hi H IH]; [constructor|]. apply Forall_app. split; auto.
  clear - Hi. induction Hi as [|k i ks is (p & n & u & k' & _ & _ & Hk & Hid & Hn & _) Hi IH]; constructor; auto.
  exists k'. split; [eapply kept_kernel_no_colon; eauto|]. rewrite Hid, Hn. reflexivity.
Qed.

Lemma info_map_use : forall deps fs m, info_map deps fs m ->
  Forall info_spelled (map snd m) /\
  forall id d, fm_get ext_id_eqb id m = Some d <-> In d (map snd m) /\ di_id d = id.
Proof.
  intros deps fs m (Hn & l & Hl & Hm). split.
  - apply Forall_forall. intros d Hd. apply in_map_iff in Hd as ([id d'] & E & Hi). cbn in E. subst d'.
    apply Hm in Hi as (l1 & l2 & -> & _). apply file_infos_spelled in Hl. rewrite Forall_forall in Hl.
    apply Hl. apply in_or_app. right; left; auto.
  - intros id d. split.
    + intros H. apply (get_some_in _ ext_id_eqb_iff) in H. split; [apply in_map_iff; exists (id, d); auto|].
      apply Hm in H as (l1 & l2 & _ & E & _). auto.
    + intros [H E]. apply in_map_iff in H as ([id' d'] & E' & Hi). cbn in E'. subst d'.
      assert (Hi' := Hi). apply Hm in Hi' as (l1 & l2 & _ & E2 & _). assert (id' = id) as E3 by congruence. rewrite E3 in Hi.
      apply (in_get _ ext_id_eqb_iff); auto.
Qed.

(** ** C51 *)

Lemma fold_by_id : forall l m id x,
  fm_get ext_id_eqb id (fold_left (fun m f => fm_set ext_id_eqb (variant_id (lv_base (snd f))) f m) l m) = Some x <->
  (exists l1 l2, l = (l1 ++ x :: l2)%list /\ variant_id (lv_base (snd x)) = id /\
     forall y, In y l2 -> variant_id (lv_base (snd y)) <> id) \/
  (forall y : fkind * lvar, In y l -> variant_id (lv_base (snd y)) <> id) /\ fm_get ext_id_eqb id m = Some x.
Proof.
  induction l as [|i l IH]; intros m id x; cbn [fold_left].
  - split; [intros H; right; split; [intros ? []|auto]|]. intros [(l1 & l2 & E & _)|[_ H]]; [destruct l1; discriminate|auto].
  - rewrite IH. split.
    + intros [(l1 & l2 & -> & H1 & H2)|[H1 H2]].
      * left. exists (i :: l1), l2. auto.
      * destruct (ext_id_eqb (variant_id (lv_base (snd i))) id) eqn:E.
        -- apply ext_id_eqb_iff in E. subst id. rewrite (get_set_same _ ext_id_eqb_iff) in H2. inversion H2; subst.
           left. exists [], l. auto.
        -- right. assert (variant_id (lv_base (snd i)) <> id) as Hne by (intros H; apply ext_id_eqb_iff in H; congruence). split.
           ++ intros j [<-|Hj]; auto.
           ++ rewrite (get_set_other _ ext_id_eqb_iff) in H2 by auto. auto.
    + intros [(l1 & l2 & E & H1 & H2)|[H1 H2]].
      * destruct l1 as [|y l1]; cbn in E; inversion E; subst.
        -- right. split; auto. apply (get_set_same _ ext_id_eqb_iff).
        -- left. exists l1, l2. auto.
      * right. split; [intros; apply H1; right; auto|]. rewrite (get_set_other _ ext_id_eqb_iff); auto.
        intros E. eapply H1; [left; reflexivity|auto].
Qed.

Lemma fold_char_spec : forall a b, Ascii.eqb (fold_char a) (fold_char b) = true <-> same_letter a b.
Proof.
  intros a b. rewrite Ascii.eqb_eq. unfold same_letter, fold_char.
  assert (Ha := nat_ascii_bounded a). assert (Hb := nat_ascii_bounded b).
  set (na := nat_of_ascii a) in *. set (nb := nat_of_ascii b) in *.
  assert (Ea : a = ascii_of_nat na) by (unfold na; symmetry; apply ascii_nat_embedding).
  assert (Eb : b = ascii_of_nat nb) by (unfold nb; symmetry; apply ascii_nat_embedding).
  assert (inj : forall x y, (x < 256)%nat -> (y < 256)%nat -> ascii_of_nat x = ascii_of_nat y -> x = y).
  { intros x y Hx Hy E. apply (f_equal nat_of_ascii) in E. rewrite !nat_ascii_embedding in E by auto. auto. }
  destruct (Nat.leb_spec 65 na), (Nat.leb_spec na 90), (Nat.leb_spec 65 nb), (Nat.leb_spec nb 90); cbn [andb];
    rewrite ?Ea, ?Eb; split; intros H';
    try (apply inj in H'; [|lia|lia]);
    try (destruct H' as [H'|(i & Hi & [[H1' H2']|[H1' H2']])];
         [apply inj in H'; [|lia|lia]|apply inj in H1', H2'; try lia|apply inj in H1', H2'; try lia]);
    try (left; f_equal; lia);
    try (f_equal; lia);
    try (right; first [exists (na - 65)%nat; split; [lia|]; left; split; f_equal; lia
                      |exists (nb - 65)%nat; split; [lia|]; right; split; f_equal; lia]; fail).
Qed.
Lemma equal_fold_spec : forall a b, equal_fold a b = true <-> same_text a b.
Proof.
  unfold same_text. induction a as [|x a IH]; intros [|y b]; cbn [equal_fold chars].
  - split; auto.
  - split; [discriminate|]. intros H; inversion H.
  - split; [discriminate|]. intros H; inversion H.
  - rewrite andb_true_iff, fold_char_spec, IH. split; [intros []; constructor; auto|intros H; inversion H; auto].
Qed.

Lemma options_spec : forall v opts, NoDup (fm_keys (lv_options v)) ->
  forallb (fun o => forallb (option_supported v (fst o)) (snd o)) opts = true <-> options_ok v opts.
Proof.
  intros v opts Hn. rewrite forallb_forall. unfold options_ok.
  assert (forall name value, option_supported v name value = true <->
            exists vals x, In (name, vals) (lv_options v) /\ In x vals /\ same_text x value) as H.
  { intros name value. unfold option_supported. destruct (fm_get String.eqb name (lv_options v)) as [vals|] eqn:E.
    - rewrite existsb_exists. split.
      + intros (x & Hx & Ef). apply equal_fold_spec in Ef. exists vals, x. split; [apply fm_get_in; auto|auto].
      + intros (vals' & x & Hi & Hx & Ef). apply (in_get _ str_eqb_spec) in Hi; auto.
        assert (vals' = vals) by congruence. subst. exists x. split; auto. apply equal_fold_spec; auto.
    - split; [discriminate|]. intros (vals & x & Hi & _). apply (in_get _ str_eqb_spec) in Hi; auto. congruence. }
  split.
  - intros Ho name prefs value Hi Hv. specialize (Ho _ Hi). rewrite forallb_forall in Ho. apply H. apply (Ho value); auto.
  - intros Ho [name prefs] Hi. rewrite forallb_forall. intros value Hv. cbn in *. apply H. eapply Ho; eauto.
Qed.
