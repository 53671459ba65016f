(** Proofs about SigModel.v, continued: matching a whole call. *)

From Coq Require Import List ZArith String Bool Lia.
From Verif Require Import Base FMap FMapFacts TypesModel TypesSpec TypesProofs ExtSetModel ExtSetProofs
  TimeProofs SigModel SigSpec SigProofs.
Import ListNotations.
Local Open Scope string_scope.

Lemma expand_zip : forall (P : fdt -> ty -> Prop) fs vb n fs' args, expand_params fs vb n = Ok fs' ->
  n = List.length args -> (List.length fs <= n + 1)%nat ->
  (vb = None -> n = List.length fs) -> 
  (AllZip P fs' args <->
   forall i f a, declared_for fs i = Some f -> nth_error args i = Some a -> P f a).
Proof.
  intros P fs vb n fs' args H Hn Hle Hnone. rewrite AllZip_nth.
  assert (Hi : forall i (a : ty), nth_error args i = Some a -> (i < n)%nat).
  { intros i a Ha. subst n. apply nth_error_Some. congruence. }
  assert (Hcase : forall i, (i < n)%nat -> nth_error fs' i = declared_for fs i).
  { intros i Hin. destruct (Nat.ltb (List.length fs) n) eqn:E.
    - apply Nat.ltb_lt in E. destruct vb as [v|].
      + destruct fs as [|f0 fs0].
        * simpl in H. destruct n; [lia|]. simpl in H. discriminate.
        * eapply expand_spec in H; [|simpl in *; lia|discriminate]. apply H; auto.
      + specialize (Hnone eq_refl). lia.
    - assert (fs' = fs) as ->.
      { unfold expand_params in H. destruct vb; [rewrite E in H|]; congruence. }
      apply Nat.ltb_ge in E. unfold declared_for.
      destruct (nth_error fs i) eqn:N; auto. apply nth_error_None in N. lia. }
  split; intros HH i f a Hf Ha; eapply HH; eauto.
  - rewrite Hcase; auto. eapply Hi; eauto.
  - rewrite <- Hcase; auto. eapply Hi; eauto.
Qed.

Lemma expand_ok : forall fs vb n, (fs <> [] \/ vb = None) -> exists fs', expand_params fs vb n = Ok fs'.
Proof.
  intros fs vb n H. unfold expand_params. destruct vb; eauto.
  destruct (Nat.ltb _ n); eauto.
  destruct (rev fs) eqn:R; eauto.
  destruct H as [H|H]; [|discriminate].
  exfalso. apply H. rewrite <- (rev_involutive fs), R. reflexivity.
Qed.

(** The any check, for a call with the right number of arguments. *)
Lemma validate_any_spec : forall fs args vb, Forall arg_type args ->
  (fs <> [] \/ vb = None) -> (List.length fs <= List.length args + 1)%nat ->
  (vb = None -> List.length args = List.length fs) ->
  (validate_any fs args vb = Ok tt <->
   exists sigma, forall i f a, declared_for fs i = Some f -> nth_error args i = Some a ->
     any_fits false sigma f a) /\
  (validate_any fs args vb = Ok tt \/ validate_any fs args vb = Err).
Proof.
  intros fs args vb Ha Hne Hle Hnone. unfold validate_any.
  destruct (expand_ok fs vb (List.length args) Hne) as [fs' E]. rewrite E. simpl bind.
  pose proof (validate_fold fs' args Ha) as H.
  assert (Hz : forall sigma, AllZip (any_fits false sigma) fs' args <->
     (forall i f a, declared_for fs i = Some f -> nth_error args i = Some a -> any_fits false sigma f a)).
  { intros sigma. eapply expand_zip; eauto. }
  destruct (fold2M bind_any fs' args []) as [b| |]; simpl; try contradiction.
  - split; auto. split; auto. intros _. destruct H as [s Hs]. exists s. apply Hz; auto.
  - split; auto. split; [discriminate|]. intros [s Hs]. exfalso. apply (H s). apply Hz; auto.
Qed.

(** ** Matching each argument *)

Definition in_range (vb : option variadic) (n pos : nat) : Prop :=
  match vb with
  | None => (pos < n)%nat
  | Some v => (v_max v = 0 \/ Z.of_nat pos <= v_max v)%Z
  end.

Lemma match_argument_spec : forall a pos nh fs vb,
  match_argument_at a pos nh fs vb = Ok true <->
  in_range vb (List.length fs) pos /\ exists f, declared_for fs pos = Some f /\ accepts nh f a.
Proof.
  intros a pos nh fs vb. unfold match_argument_at.
  set (oor := match vb with
              | Some v => negb (valid_position v (Z.of_nat pos))
              | None => Nat.leb (List.length fs) pos end).
  assert (Ho : oor = false <-> in_range vb (List.length fs) pos).
  { unfold oor, in_range. destruct vb as [v|].
    - unfold valid_position. rewrite negb_false_iff, andb_true_iff, orb_true_iff, !Z.leb_le, Z.eqb_eq. lia.
    - rewrite Nat.leb_gt. tauto. }
  destruct oor.
  - split; [discriminate|]. intros [Hr _]. apply Ho in Hr. discriminate.
  - rewrite declared_at_spec. destruct (declared_for fs pos) as [f|]; simpl.
    + split.
      * intros H. split; [apply Ho; auto|]. exists f. split; auto. unfold accepts.
        destruct nh; inversion H; try (apply match_without_instance; auto; fail).
        apply match_with_spec; auto.
      * intros [_ [f' [Hf Hacc]]]. inversion Hf; subst f'. unfold accepts in Hacc.
        destruct nh; try contradiction; f_equal;
          try (apply match_without_instance; auto; fail). apply match_with_spec; auto.
    + split; [discriminate|]. intros [_ [f [Hf _]]]; discriminate.
Qed.

Lemma match_each_spec : forall args pos nh fs vb,
  match_each args pos nh fs vb = Ok true <->
  forall i a, nth_error args i = Some a ->
    in_range vb (List.length fs) (pos + i) /\
    exists f, declared_for fs (pos + i) = Some f /\ accepts nh f a.
Proof.
  induction args as [|a l IH]; intros pos nh fs vb; simpl.
  - split; auto. intros _ [|i]; discriminate.
  - split.
    + intros H. destruct (match_argument_at a pos nh fs vb) as [[|]| |] eqn:E; simpl in H; try discriminate.
      intros [|i] x Hx; simpl in Hx.
      * inversion Hx; subst. rewrite Nat.add_0_r. apply match_argument_spec; auto.
      * rewrite IH in H. specialize (H i x Hx). replace (pos + S i)%nat with (S pos + i)%nat by lia. auto.
    + intros H. assert (E : match_argument_at a pos nh fs vb = Ok true).
      { apply match_argument_spec. specialize (H 0%nat a eq_refl). rewrite Nat.add_0_r in H. auto. }
      rewrite E. simpl. apply IH. intros i x Hx. specialize (H (S i) x Hx).
      replace (S pos + i)%nat with (pos + S i)%nat by lia. auto.
Qed.

(** ** Shared integer parameters *)

Lemma existsb_false : forall A (p : A -> bool) l, existsb p l = false <-> Forall (fun x => p x = false) l.
Proof.
  intros A p l. induction l as [|x l IH]; simpl.
  - split; auto.
  - rewrite orb_false_iff, IH. split; [intros [? ?]; constructor; auto | inversion 1; auto].
Qed.

Lemma no_int_var_has_param : forall f, no_int_var f -> has_param f = false.
Proof.
  intros f. pattern f.
  apply fdt_ind' with
    (Q := fun p => match p with UData g => no_int_var g -> has_param g = false | _ => True end);
    simpl; auto; intros.
  - destruct i; tauto.
  - destruct p; destruct s; simpl; tauto.
  - destruct H1. rewrite H, H0; auto.
  - apply existsb_false. apply All_Forall in H0.
    rewrite Forall_forall in *. auto.
  - destruct H1 as [H1 H2]. rewrite (H0 H2), orb_false_r. apply existsb_false. apply All_Forall in H1.
    rewrite Forall_forall in *. auto.
  - induction ps as [|p ps IH]; auto. inversion H; subst. destruct H0 as [Ha Hb].
    destruct p; auto.
Qed.

Lemma no_param_no_text : forall f x, has_param f = false -> ~ text f x.
Proof.
  intros f x H T. revert H. induction T; simpl; intros H'; try discriminate; auto.
  - destruct H as [y [-> | ->]]; simpl in H'; try discriminate.
    rewrite orb_true_r in H'. discriminate.
  - apply orb_false_iff in H'. tauto.
  - apply orb_false_iff in H'. tauto.
  - rewrite existsb_false, Forall_forall in H'. auto.
  - apply orb_false_iff in H'. destruct H' as [H' _]. rewrite existsb_false, Forall_forall in H'. auto.
  - apply orb_false_iff in H'. tauto.
Qed.

Definition leaf_ok (f : fdt) : Prop := no_user_var f ->
  exists l, leaf_params f = Ok l /\ forall x, In x l <-> text f x.

Lemma leaf_params_unguard : forall f, leaf_params f =
  if has_param f then
    match f with
    | FPrim _ _ _ | FEnum _ _ _ _ _ | FAny _ _ _ => Ok []
    | FSingle _ _ _ i => Ok [iparam_string i]
    | FDecimal _ _ p s => Ok [iparam_string p; iparam_string s]
    | FList _ _ e => leaf_params e
    | FMap _ _ k x => let! a := leaf_params k in let! b := leaf_params x in Ok (a ++ b)%list
    | FStruct _ _ fs => let! ls := mapM leaf_params fs in Ok (List.concat ls)
    | FFunc _ ps r =>
        let! ls := mapM leaf_params ps in let! b := leaf_params r in Ok (List.concat ls ++ b)%list
    | FUser _ _ _ _ => Panic
    | FDeriv _ g => leaf_params g
    end
  else Ok [].
Proof. destruct f; reflexivity. Qed.

Lemma leaf_mapM : forall fs, Forall leaf_ok fs -> All no_user_var fs ->
  exists ls, mapM leaf_params fs = Ok ls /\
    forall x, In x (List.concat ls) <-> exists f, In f fs /\ text f x.
Proof.
  intros fs H. induction H as [|f fs Hf _ IH]; intros Ha.
  - exists []. split; auto. simpl. split; [tauto|]. intros [f [[] _]].
  - destruct Ha as [Ha1 Ha2]. destruct (Hf Ha1) as [l [Hl Ht]]. destruct (IH Ha2) as [ls [Hls Hts]].
    exists (l :: ls). simpl. rewrite Hl. simpl. rewrite Hls. simpl. split; auto.
    intros x. rewrite in_app_iff, Ht, Hts. split.
    + intros [?|[g [? ?]]]; eauto.
    + intros [g [[<-|?] ?]]; eauto.
Qed.

Lemma leaf_params_spec : forall f, leaf_ok f.
Proof.
  intros f. pattern f.
  apply fdt_ind' with (Q := fun p => True); auto; clear f.
  all: intros; intros Hn; rewrite leaf_params_unguard.
  all: match goal with |- context [has_param ?f] => destruct (has_param f) eqn:Hp end;
    [|exists []; split; [auto|]; intros; split; [intros []|intros T; exfalso; eapply no_param_no_text; eauto]].
  all: try discriminate.
  - destruct i as [z|s]; [discriminate|]. exists [s]. split; auto. intros x. simpl. split.
    + intros [<-|[]]. constructor.
    + inversion 1; auto.
  - eexists. split; [reflexivity|]. intros x. simpl.
    assert (Hv : exists y, p = IVar y \/ s = IVar y).
    { simpl in Hp. destruct p; destruct s; try discriminate; eauto. }
    split.
    + intros [<-|[<-|[]]].
      * eapply T_decimal with (i := p); auto.
      * eapply T_decimal with (i := s); auto.
    + inversion 1; subst. destruct H6 as [-> | ->]; auto.
  - simpl in Hn. destruct (H Hn) as [l [Hl Ht]]. exists l. split; auto. intros x. rewrite Ht.
    split; [constructor; auto | inversion 1; auto].
  - destruct Hn as [H1 H2]. destruct (H H1) as [l [Hl Ht]]. destruct (H0 H2) as [l' [Hl' Ht']].
    rewrite Hl; simpl; rewrite Hl'; simpl. eexists; split; [reflexivity|]. intros y.
    rewrite in_app_iff, Ht, Ht'. split.
    + intros [?|?]; [apply T_key | apply T_value]; auto.
    + inversion 1; auto.
  - destruct (leaf_mapM fs H Hn) as [ls [Hls Ht]]. rewrite Hls. simpl. eexists; split; [reflexivity|].
    intros x. rewrite Ht. split.
    + intros [f [? ?]]; econstructor; eauto.
    + inversion 1; eauto.
  - destruct Hn as [Hn1 Hn2]. destruct (leaf_mapM ps H Hn1) as [ls [Hls Ht]]. destruct (H0 Hn2) as [l [Hl Ht']].
    rewrite Hls. simpl. rewrite Hl. simpl. eexists; split; [reflexivity|].
    intros x. rewrite in_app_iff, Ht, Ht'. split.
    + intros [[f [? ?]]|?]; [eapply T_param | apply T_ret]; eauto.
    + inversion 1; eauto.
  - exfalso. rewrite no_int_var_has_param in Hp; [discriminate|]. exact Hn.
  - destruct (H Hn) as [ls [Hls Ht]]. exists ls. split; auto. intros x. rewrite Ht.
    split; [constructor; auto | inversion 1; auto].
Qed.

Lemma has_sync_gen : forall fs seen, All no_user_var fs ->
  exists b, has_sync_params fs seen = Ok b /\
    (b = true <-> shares_text fs \/ exists i f x, nth_error fs i = Some f /\ text f x /\ In x seen).
Proof.
  induction fs as [|f fs IH]; intros seen Ha; simpl.
  - exists false. split; auto. split; [discriminate|].
    intros [(i & j & f & g & x & _ & H & _)|(i & f & x & H & _)]; destruct i; discriminate.
  - destruct Ha as [Ha1 Ha2]. destruct (leaf_params_spec f Ha1) as [l [Hl Ht]]. rewrite Hl. simpl.
    destruct (existsb _ l) eqn:E.
    + exists true. split; auto. split; auto. intros _. right.
      apply existsb_exists in E. destruct E as [x [Hx E]]. apply existsb_exists in E.
      destruct E as [y [Hy E]]. apply String.eqb_eq in E; subst y.
      exists 0%nat, f, x. split; auto. split; auto. apply Ht; auto.
    + destruct (IH (l ++ seen)%list Ha2) as [b [Hb Hs]]. exists b. split; auto.
      rewrite Hs. split.
      * intros [(i & j & f' & g & x & Hij & H1 & H2 & H3)|(i & g & x & H1 & H2 & H3)].
        -- left. exists (S i), (S j), f', g, x. split; [lia|]. auto.
        -- apply in_app_iff in H3. destruct H3 as [H3|H3].
           ++ left. exists 0%nat, (S i), f, g, x. split; [lia|]. split; auto. split; auto. split; auto. apply Ht; auto.
           ++ right. exists (S i), g, x. auto.
      * intros [(i & j & f' & g & x & Hij & H1 & H2 & H3 & H4)|(i & g & x & H1 & H2 & H3)].
        -- destruct j as [|j]; [lia|]. simpl in H2. destruct i as [|i]; simpl in H1.
           ++ inversion H1; subst f'. right. exists j, g, x. split; auto. split; auto.
              apply in_app_iff. left. apply Ht; auto.
           ++ left. exists i, j, f', g, x. split; [lia|]. auto.
        -- destruct i as [|i]; simpl in H1.
           ++ inversion H1; subst g. exfalso.
              rewrite existsb_false, Forall_forall in E. apply Ht in H2. specialize (E x H2).
              rewrite existsb_false, Forall_forall in E. specialize (E x H3).
              rewrite String.eqb_refl in E. discriminate.
           ++ right. exists i, g, x. split; auto. split; auto. apply in_app_iff; auto.
Qed.

Lemma has_sync_spec : forall fs, All no_user_var fs ->
  exists b, has_sync_params fs [] = Ok b /\ (b = true <-> shares_text fs).
Proof.
  intros fs H. destruct (has_sync_gen fs [] H) as [b [Hb Hs]]. exists b. split; auto. rewrite Hs.
  split; auto. intros [?|(i & f & x & _ & _ & [])]; auto.
Qed.

(** ** The whole match *)

Lemma func_defs_spec : forall params fs,
  func_defs params = Ok fs <-> Forall2 (fun p f => param_type p = Some f) params fs.
Proof.
  induction params as [|p l IH]; intros fs; simpl.
  - split; [intros H; inversion H; constructor | inversion 1; auto].
  - destruct p as [f|nm o|f]; simpl.
    + split.
      * destruct (func_defs l) as [fs'| |] eqn:E; simpl; try discriminate. intros H; inversion H; subst.
        constructor; auto. apply IH; auto.
      * inversion 1 as [|? ? ? ? H1 H2]; subst. apply IH in H2. rewrite H2. simpl. simpl in H1. congruence.
    + split.
      * destruct (func_defs l) as [fs'| |] eqn:E; simpl; try discriminate. intros H; inversion H; subst.
        constructor; auto. apply IH; auto.
      * inversion 1 as [|? ? ? ? H1 H2]; subst. apply IH in H2. rewrite H2. simpl. simpl in H1. unfold common_enum. congruence.
    + split; [discriminate|]. inversion 1; subst. discriminate.
Qed.

Lemma func_defs_no_panic : forall params, func_defs params <> Panic.
Proof.
  induction params as [|p l IH]; simpl; [discriminate|].
  destruct p; destruct (func_defs l); simpl; congruence.
Qed.

Lemma Forall2_len : forall A B (R : A -> B -> Prop) l m, Forall2 R l m -> List.length l = List.length m.
Proof. induction 1; simpl; auto. Qed.

Lemma variadic_spec : forall v actual, Forall arg_type actual ->
  exists b, validate_variadic v actual = Ok b /\
   (b = true <->
    (v_min v <= Z.of_nat (List.length actual))%Z /\
    (v_max v = 0 \/ Z.of_nat (List.length actual) <= v_max v)%Z /\
    match v_consistency v with
    | Consistent => uniform_from (Z.to_nat (Z.max (v_min v - 1) 0)) actual
    | Inconsistent => True
    end).
Proof.
  intros v actual Ha. unfold validate_variadic.
  destruct (valid_count v (Z.of_nat (List.length actual))) eqn:E; unfold valid_count in E; simpl negb.
  - rewrite andb_true_iff, orb_true_iff, !Z.leb_le, Z.eqb_eq in E. cbn iota.
    destruct (v_consistency v).
    + destruct (adjacent_uniform (skipn (Z.to_nat (Z.max (v_min v - 1) 0)) actual)) as [b [Hb Hu]].
      { apply Forall_skipn; auto. }
      exists b. split; auto. rewrite Hu, uniform_skipn. tauto.
    + exists true. split; auto. tauto.
  - exists false. split; auto. split; [discriminate|]. intros (H1 & H2 & _).
    rewrite andb_false_iff, orb_false_iff, !Z.leb_gt, Z.eqb_neq in E. lia.
Qed.

Lemma uniform_nested : forall a b l, uniform_from a (skipn b l) <-> uniform_from (b + a) l.
Proof. intros. rewrite <- uniform_skipn, skipn_skipn', uniform_skipn. reflexivity. Qed.

(** the first stage of [match_arguments] *)
Definition count_stage (params : list fparam) (vb : option variadic) (actual : list ty) : res bool :=
  match vb with
  | None => Ok (Nat.eqb (List.length actual) (List.length params))
  | Some v =>
      match params with
      | [] => Panic
      | _ :: fixed =>
          if Nat.ltb (List.length actual) (List.length fixed) then Panic
          else validate_variadic v (skipn (List.length fixed) actual)
      end
  end.

Lemma count_stage_spec : forall params vb actual, Forall arg_type actual ->
  (params <> [] \/ vb = None) ->
  (count_stage params vb actual = Ok true <->
   count_ok (List.length params) vb (List.length actual) /\ consistent_args (List.length params) vb actual).
Proof.
  intros params vb actual Ha Hne. unfold count_stage, count_ok, consistent_args.
  destruct vb as [[mn mx c]|].
  - destruct params as [|p fixed]; [destruct Hne; [congruence|discriminate]|].
    cbn [List.length v_min v_max].
    destruct (Nat.ltb (List.length actual) (List.length fixed)) eqn:E.
    + apply Nat.ltb_lt in E. split; [discriminate|]. lia.
    + apply Nat.ltb_ge in E.
      destruct (variadic_spec (Variadic mn mx c) (skipn (List.length fixed) actual)) as [b [Hb Hs]].
      { apply Forall_skipn; auto. }
      rewrite Hb. cbn [v_min v_max v_consistency] in Hs. rewrite skipn_length in Hs.
      transitivity (b = true); [split; congruence|]. rewrite Hs.
      replace (S (List.length fixed) - 1)%nat with (List.length fixed) by lia.
      destruct c; [rewrite uniform_nested|];
      (split; [intros (H1 & H2 & H3)|intros ((H1 & H2) & H3)]; repeat split; auto; lia).
  - split.
    + intros H; inversion H as [E]. apply Nat.eqb_eq in E. auto.
    + intros [-> _]. rewrite Nat.eqb_refl; auto.
Qed.

Lemma match_arguments_unfold : forall nh params vb actual,
  match_arguments nh params vb actual =
  let! b := count_stage params vb actual in
  if negb b then Ok false
  else
    match func_defs params with
    | Err => Ok false
    | Panic => Panic
    | Ok fs =>
        let! m := match_each actual 0 nh fs vb in
        if negb m then Ok false
        else
          let! sync := has_sync_params fs [] in
          if sync then
            match build_symtab fs actual [] with
            | Ok _ => Ok true
            | Err => Ok false
            | Panic => Panic
            end
          else
            let! _ := validate_any fs actual vb in
            Ok true
    end.
Proof. reflexivity. Qed.

Lemma in_range_all : forall vb (fs : list fdt) (args : list ty),
  count_ok (List.length fs) vb (List.length args) ->
  ((forall i a, nth_error args i = Some a -> in_range vb (List.length fs) i) <->
   positions_ok vb (List.length args)).
Proof.
  intros vb fs args Hc. unfold in_range, positions_ok. destruct vb as [v|].
  - split.
    + intros H. destruct args as [|a0 args0]; [auto|].
      destruct (nth_error (a0 :: args0) (List.length args0)) as [x|] eqn:E.
      * specialize (H _ _ E). simpl List.length. lia.
      * apply nth_error_None in E. simpl in E. lia.
    + intros H i a Ha. assert (i < List.length args)%nat by (apply nth_error_Some; congruence). lia.
  - split; auto. intros _ i a Ha. simpl in Hc. rewrite <- Hc. apply nth_error_Some. congruence.
Qed.

Lemma match_each_split : forall nh fs vb args,
  count_ok (List.length fs) vb (List.length args) ->
  (match_each args 0 nh fs vb = Ok true <->
   positions_ok vb (List.length args) /\ each_accepted nh fs args).
Proof.
  intros nh fs vb args Hc. rewrite match_each_spec, <- (in_range_all vb fs args Hc).
  unfold each_accepted. simpl. split.
  - intros H. split; intros i a Ha; apply (H i a Ha).
  - intros [H1 H2] i a Ha. split; eauto.
Qed.

Lemma count_len : forall (fs : list fdt) vb (args : list ty), count_ok (List.length fs) vb (List.length args) ->
  (List.length fs <= List.length args + 1)%nat /\ (vb = None -> List.length args = List.length fs).
Proof.
  intros fs [v|] args H; simpl in H; split; try lia; try discriminate; auto.
Qed.

(** Signatures without shared integer parameters. *)
Lemma match_arguments_any : forall nh params vb args fs,
  Forall2 (fun p f => param_type p = Some f) params fs ->
  (params <> [] \/ vb = None) -> Forall arg_type args ->
  All no_user_var fs -> ~ shares_text fs ->
  (match_arguments nh params vb args = Ok true <->
   count_ok (List.length params) vb (List.length args) /\
   consistent_args (List.length params) vb args /\
   positions_ok vb (List.length args) /\
   each_accepted nh fs args /\
   exists sigma, forall i f a, declared_for fs i = Some f -> nth_error args i = Some a ->
     any_fits false sigma f a).
Proof.
  intros nh params vb args fs Hfs Hne Ha Hu Hs.
  pose proof (Forall2_len _ _ _ _ _ Hfs) as Hlen.
  apply func_defs_spec in Hfs.
  destruct (has_sync_spec fs Hu) as [sy [Hsy Hsh]].
  assert (sy = false) as -> by (destruct sy; auto; exfalso; apply Hs, Hsh; auto).
  rewrite match_arguments_unfold.
  pose proof (count_stage_spec params vb args Ha Hne) as Hcs.
  split.
  - destruct (count_stage params vb args) as [[|]| |]; simpl bind; try discriminate.
    destruct (proj1 Hcs eq_refl) as [Hc Hcons]. cbn [negb]. rewrite Hfs.
    destruct (match_each args 0 nh fs vb) as [[|]| |] eqn:Em; simpl bind; try discriminate.
    rewrite Hlen in Hc. destruct (count_len fs vb args Hc) as [Hl1 Hl2].
    apply (match_each_split nh fs vb args Hc) in Em. destruct Em as [Hp Hacc].
    cbn [negb]. rewrite Hsy. simpl bind.
    assert (Hne' : fs <> [] \/ vb = None).
    { destruct Hne as [Hne|]; auto. left. intros ->. destruct params; simpl in Hlen; [congruence|discriminate]. }
    destruct (validate_any_spec fs args vb Ha Hne' Hl1 Hl2) as [Hv [Hv'|Hv']]; rewrite Hv'; simpl bind;
      try discriminate.
    intros _. rewrite <- Hlen in Hc. repeat split; auto. apply Hv; auto.
  - intros (Hc & Hcons & Hp & Hacc & Hsig).
    rewrite (proj2 Hcs (conj Hc Hcons)). simpl bind. cbn [negb]. rewrite Hfs.
    rewrite Hlen in Hc. destruct (count_len fs vb args Hc) as [Hl1 Hl2].
    rewrite (proj2 (match_each_split nh fs vb args Hc) (conj Hp Hacc)). simpl bind. cbn [negb]. rewrite Hsy. simpl bind.
    assert (Hne' : fs <> [] \/ vb = None).
    { destruct Hne as [Hne|]; auto. left. intros ->. destruct params; simpl in Hlen; [congruence|discriminate]. }
    destruct (validate_any_spec fs args vb Ha Hne' Hl1 Hl2) as [Hv _].
    rewrite (proj2 Hv Hsig). reflexivity.
Qed.

(** Signatures with shared integer parameters: the any check is replaced by the
    symbol table. *)
Lemma match_arguments_shared : forall nh params vb args fs,
  Forall2 (fun p f => param_type p = Some f) params fs ->
  (params <> [] \/ vb = None) -> Forall arg_type args ->
  All no_user_var fs -> shares_text fs ->
  (match_arguments nh params vb args = Ok true <->
   count_ok (List.length params) vb (List.length args) /\
   consistent_args (List.length params) vb args /\
   positions_ok vb (List.length args) /\
   each_accepted nh fs args /\
   exists s, build_symtab fs args [] = Ok s).
Proof.
  intros nh params vb args fs Hfs Hne Ha Hu Hs.
  pose proof (Forall2_len _ _ _ _ _ Hfs) as Hlen.
  apply func_defs_spec in Hfs.
  destruct (has_sync_spec fs Hu) as [sy [Hsy Hsh]].
  assert (sy = true) as -> by (apply Hsh; auto).
  rewrite match_arguments_unfold.
  pose proof (count_stage_spec params vb args Ha Hne) as Hcs.
  split.
  - destruct (count_stage params vb args) as [[|]| |]; simpl bind; try discriminate.
    destruct (proj1 Hcs eq_refl) as [Hc Hcons]. cbn [negb]. rewrite Hfs.
    destruct (match_each args 0 nh fs vb) as [[|]| |] eqn:Em; simpl bind; try discriminate.
    rewrite Hlen in Hc.
    apply (match_each_split nh fs vb args Hc) in Em. destruct Em as [Hp Hacc].
    cbn [negb]. rewrite Hsy. simpl bind.
    destruct (build_symtab fs args []) as [s| |]; try discriminate.
    intros _. rewrite <- Hlen in Hc. repeat split; eauto.
  - intros (Hc & Hcons & Hp & Hacc & [s Hsig]).
    rewrite (proj2 Hcs (conj Hc Hcons)). simpl bind. cbn [negb]. rewrite Hfs.
    rewrite Hlen in Hc.
    rewrite (proj2 (match_each_split nh fs vb args Hc) (conj Hp Hacc)). simpl bind. cbn [negb]. rewrite Hsy. simpl bind.
    rewrite Hsig. reflexivity.
Qed.
