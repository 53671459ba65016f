(** Proofs about SigModel.v, concluded: the type of a call. *)

From Coq Require Import List ZArith String Bool Lia.
From Verif Require Import Base FMap FMapFacts TypesModel TypesSpec TypesProofs ExtSetModel ExtSetSpec ExtSetProofs ExtSetProps
  TimeProofs SigModel SigSpec SigProofs SigMatchProofs SigEvalProofs.
Import ListNotations.
Local Open Scope string_scope.

Lemma wrap32 : forall z, (- 2 ^ 31 <= z < 2 ^ 31)%Z -> wrap 32 z = z.
Proof. intros z H. apply wrap_id; [lia|]. unfold in_int. change (2 ^ (32 - 1))%Z with (2 ^ 31)%Z. lia. Qed.

Lemma derivation_params_eq : forall ps args g l g' gs, fits_params ps args -> variables_of ps args g ->
  runs g l g' ->
  exists s, derivation_params ps args l gs = mapM (param_value s) gs /\ forall x, env_of s x = g' x.
Proof.
  intros ps args g l g' gs Hf Hg R.
  destruct (build_symtab_ok ps args g Hf Hg) as [s [Hs He]].
  destruct (run_runs l g g' R s He) as [s' [Hs' He']].
  exists s'. unfold derivation_params. rewrite Hs. simpl. rewrite Hs'. simpl. auto.
Qed.

Lemma param_value_numeral : forall s g i z, (forall x, env_of s x = g x) -> number32 i ->
  (numeral g i z <-> exists a, param_value s (GInt i) = Ok (VInt a) /\ z = wrap 32 a).
Proof.
  intros s g i z He Hn. destruct i as [c|x]; simpl.
  - split.
    + inversion 1; subst. exists z. rewrite wrap32; auto.
    + intros [a [E ->]]. inversion E; subst. rewrite wrap32 by auto. constructor.
  - change (st_get x s) with (env_of s x). rewrite He. split.
    + inversion 1; subst. exists z0. rewrite H1. auto.
    + intros [a [E ->]]. constructor. destruct (g x); inversion E; auto.
Qed.

Lemma param_value_numeral1 : forall s g i z, (forall x, env_of s x = g x) -> number32 i ->
  (numeral1 g i z <-> (exists a, param_value s (GInt i) = Ok (VInt a) /\ z = wrap 32 a) \/
                      param_value s (GInt i) = Ok (VPrec z)).
Proof.
  intros s g i z He Hn. split.
  - inversion 1; subst.
    + left. eapply param_value_numeral; eauto.
    + right. simpl. change (st_get x s) with (env_of s x). rewrite He, H0. auto.
  - intros [H|H].
    + apply N1_numeral. eapply param_value_numeral; eauto.
    + destruct i; simpl in H; [discriminate|]. apply N1_precision.
      change (st_get name s) with (env_of s name) in H. rewrite He in H.
      destruct (g name); inversion H; auto.
Qed.

Lemma make_single_of : forall k n z, make_single k n z = single_of k n z.
Proof. destruct k; reflexivity. Qed.

(** integer parameters of the result, once the symbol table is there *)
Lemma decimal_numeral : forall s g n v p sc t, (forall x, env_of s x = g x) -> number32 p -> number32 sc ->
  ((let! vs := mapM (param_value s) (get_params (FDecimal n v p sc)) in decimal_with_parameters n p sc vs) = Ok t <->
   exists zp zs, numeral g p zp /\ numeral g sc zs /\ t = TDecimal n 0 zp zs).
Proof.
  intros s g n v p sc t He Hp Hs.
  destruct (is_var p || is_var sc) eqn:E.
  - assert (Hg : get_params (FDecimal n v p sc) = [GInt p; GInt sc]) by (simpl; rewrite E; auto).
    rewrite Hg. cbn [mapM]. split.
    + destruct (param_value s (GInt p)) as [a| |] eqn:Ea; try discriminate.
      destruct (param_value s (GInt sc)) as [b| |] eqn:Eb; try discriminate.
      cbn. destruct a as [a| | | | |]; try discriminate. destruct b as [b| | | | |]; try discriminate.
      intros H; inversion H; subst.
      exists (wrap 32 a), (wrap 32 b). split; [|split; auto]; eapply param_value_numeral; eauto.
    + intros (zp & zs & H1 & H2 & ->).
      rewrite (param_value_numeral s) in H1 by auto. rewrite (param_value_numeral s) in H2 by auto.
      destruct H1 as [a [Ea ->]]. destruct H2 as [b [Eb ->]]. rewrite Ea, Eb. reflexivity.
  - assert (Hg : get_params (FDecimal n v p sc) = []) by (simpl; rewrite E; auto).
    rewrite Hg. simpl. destruct p as [a|]; destruct sc as [b|]; try discriminate. split.
    + intros H; inversion H; subst. exists a, b. repeat split; constructor.
    + intros (zp & zs & H1 & H2 & ->). inversion H1; inversion H2; subst. reflexivity.
Qed.

Lemma single_numeral : forall s g k n v i t, (forall x, env_of s x = g x) -> number32 i ->
  ((let! vs := mapM (param_value s) (get_params (FSingle k n v i)) in single_with_parameters k n i vs) = Ok t <->
   exists z, numeral1 g i z /\ t = single_of k n z).
Proof.
  intros s g k n v i t He Hi. destruct i as [c|x].
  - simpl. split.
    + intros H; inversion H; subst. exists c. rewrite make_single_of. split; auto. constructor; constructor.
    + intros (z & H & ->). rewrite make_single_of. inversion H; subst. inversion H0; subst; auto.
  - change (get_params (FSingle k n v (IVar x))) with [GInt (IVar x)]. cbn [mapM]. split.
    + destruct (param_value s (GInt (IVar x))) as [a| |] eqn:Ea; try discriminate.
      cbn. destruct a as [a|a| | | |]; try discriminate; intros H; inversion H; subst.
      * exists (wrap 32 a). rewrite make_single_of. split; auto. apply (param_value_numeral1 s); eauto.
      * exists a. rewrite make_single_of. split; auto. apply (param_value_numeral1 s); eauto.
    + intros (z & H & ->). rewrite (param_value_numeral1 s) in H by auto.
      destruct H as [[a [Ea ->]]|Ea]; rewrite Ea; simpl; rewrite make_single_of; auto.
Qed.

Lemma return_decimal : forall n v p sc ps args,
  return_type (FDecimal n v p sc) ps args =
  (if is_var p || is_var sc then
     let! vs := derivation_params ps args [] (get_params (FDecimal n v p sc)) in decimal_with_parameters n p sc vs
   else decimal_with_parameters n p sc []).
Proof. intros n v [a|a] [b|b] ps args; reflexivity. Qed.

Lemma return_single : forall k n v i ps args,
  return_type (FSingle k n v i) ps args =
  (if is_var i then
     let! vs := derivation_params ps args [] (get_params (FSingle k n v i)) in single_with_parameters k n i vs
   else single_with_parameters k n i []).
Proof. intros k n v [a|a] ps args; reflexivity. Qed.

Section Result.
  Variables (ps : list fdt) (args : list ty) (g : env).
  Hypothesis Hfit : fits_params ps args.
  Hypothesis Hvars : variables_of ps args g.
  Hypothesis Hany : forall name, fits_any name ps args.

  Let h := first_occurrence ps args.

  Definition ret_ok (f : fdt) : Prop := forall t, numbers32 f ->
    (result g h f t -> return_type f ps args = Ok t) /\
    (no_program f -> return_type f ps args = Ok t -> result g h f t).

  Lemma ret_list : forall fs, Forall ret_ok fs -> All numbers32 fs ->
    forall ts, (Forall2 (result g h) fs ts -> mapM (fun f => return_type f ps args) fs = Ok ts) /\
               (All no_program fs -> mapM (fun f => return_type f ps args) fs = Ok ts -> Forall2 (result g h) fs ts).
  Proof.
    intros fs H. induction H as [|f fs Hf _ IH]; intros Hn ts.
    - simpl. split; [inversion 1; auto | intros _ E; inversion E; constructor].
    - destruct Hn as [Hn1 Hn2]. split.
      + inversion 1; subst. simpl. rewrite (proj1 (Hf _ Hn1) H2). simpl.
        rewrite (proj1 (IH Hn2 _) H4). reflexivity.
      + intros [Hp1 Hp2] E. simpl in E.
        destruct (return_type f ps args) as [t| |] eqn:Ef; simpl in E; try discriminate.
        destruct (mapM (fun f => return_type f ps args) fs) as [ts'| |] eqn:Em; simpl in E; try discriminate.
        inversion E; subst. constructor; [apply (Hf t Hn1); auto | apply (IH Hn2 ts'); auto].
  Qed.

  Definition ret_param (p : udtp) : res tparam :=
    match p with
    | UData f => let! t := return_type f ps args in Ok (TPdata t)
    | UInt z => Ok (TPint z)
    | UStr s => Ok (TPstring s)
    end.

  Definition retp_ok (p : udtp) : Prop := match p with UData f => ret_ok f | _ => True end.

  Lemma ret_params : forall l, Forall retp_ok l ->
    All (fun p => match p with UData f => numbers32 f | _ => True end) l ->
    forall qs, (Forall2 (result_param g h) l qs -> mapM ret_param l = Ok qs) /\
               (All (fun p => match p with UData f => no_program f | _ => True end) l ->
                mapM ret_param l = Ok qs -> Forall2 (result_param g h) l qs).
  Proof.
    intros l H. induction H as [|p l Hp _ IH]; intros Hn qs.
    - simpl. split; [inversion 1; auto | intros _ E; inversion E; constructor].
    - destruct Hn as [Hn1 Hn2]. split.
      + inversion 1 as [|? q ? qs' Hq Hqs]; subst. simpl. rewrite (proj1 (IH Hn2 _) Hqs).
        inversion Hq; subst; simpl; auto. rewrite (proj1 (Hp _ Hn1) H0). reflexivity.
      + intros [Hq1 Hq2] E. simpl in E.
        destruct (ret_param p) as [q| |] eqn:Ef; simpl in E; try discriminate.
        destruct (mapM ret_param l) as [qs'| |] eqn:Em; simpl in E; try discriminate.
        inversion E; subst. constructor; [|apply (IH Hn2 qs'); auto].
        destruct p as [f|z|s]; simpl in Ef.
        * destruct (return_type f ps args) as [t| |] eqn:Er; simpl in Ef; try discriminate.
          inversion Ef; subst. constructor. apply (Hp t Hn1); auto.
        * inversion Ef; constructor.
        * inversion Ef; constructor.
  Qed.

  Lemma empty_program : forall gs, exists s, derivation_params ps args [] gs = mapM (param_value s) gs /\
    forall x, env_of s x = g x.
  Proof. intros gs. apply (derivation_params_eq ps args g [] g gs); auto. constructor. Qed.

  Lemma return_decimal_iff : forall n v p sc t, number32 p -> number32 sc ->
    (return_type (FDecimal n v p sc) ps args = Ok t <->
     exists zp zs, numeral g p zp /\ numeral g sc zs /\ t = TDecimal n 0 zp zs).
  Proof.
    intros n v p sc t Hp Hs. rewrite return_decimal.
    destruct (empty_program (get_params (FDecimal n v p sc))) as [s [Hd He]].
    rewrite <- (decimal_numeral s g n v p sc t He Hp Hs). rewrite Hd.
    destruct (is_var p || is_var sc) eqn:E; [tauto|].
    assert (Hg : get_params (FDecimal n v p sc) = []) by (simpl; rewrite E; auto).
    rewrite Hg. simpl. tauto.
  Qed.

  Lemma return_single_iff : forall k n v i t, number32 i ->
    (return_type (FSingle k n v i) ps args = Ok t <->
     exists z, numeral1 g i z /\ t = single_of k n z).
  Proof.
    intros k n v i t Hi. rewrite return_single.
    destruct (empty_program (get_params (FSingle k n v i))) as [s [Hd He]].
    rewrite <- (single_numeral s g k n v i t He Hi). rewrite Hd.
    destruct i; simpl; tauto.
  Qed.

  Lemma return_any_iff : forall x v n t,
    return_type (FAny x v n) ps args = Ok t <-> result g h (FAny x v n) t.
  Proof.
    intros x v n t. cbn [return_type]. unfold any_return_type. rewrite any_lookup by auto. simpl bind.
    change (hd_error (zip_concat (occurrences x) ps args)) with (h x).
    destruct (h x) as [u|] eqn:E.
    - destruct (Z.eqb n NullNullable) eqn:En.
      + apply Z.eqb_eq in En; subst. split.
        * intros H; inversion H; subst. apply Res_any_nullable; auto.
        * inversion 1; subst; try congruence.
      + apply Z.eqb_neq in En. split.
        * intros H; inversion H; subst. constructor; auto.
        * inversion 1; subst; congruence.
    - split; [discriminate|]. inversion 1; congruence.
  Qed.

  Lemma return_type_result : forall f, ret_ok f.
  Proof.
    intros f. pattern f. apply fdt_ind' with (Q := retp_ok); clear f; simpl; auto.
    - intros p n v t _. split; [inversion 1; auto | intros _ E; inversion E; constructor].
    - intros c n v s o t _. split; [inversion 1; auto | intros _ E; inversion E; constructor].
    - intros k n v i t Hn. split.
      + inversion 1; subst. apply return_single_iff; eauto.
      + intros _ E. apply return_single_iff in E; auto. destruct E as [z [Hz ->]]. constructor; auto.
    - intros n v p s t [Hn1 Hn2]. split.
      + inversion 1; subst. apply return_decimal_iff; auto. eauto.
      + intros _ E. apply return_decimal_iff in E; auto. destruct E as (zp & zs & H1 & H2 & ->). constructor; auto.
    - intros x v n t _. split; [|intros _]; apply return_any_iff.
    - intros n v e IH t Hn. simpl in Hn. split.
      + inversion 1; subst. cbn [return_type]. rewrite (proj1 (IH _ Hn) H4). reflexivity.
      + intros Hp E. cbn [return_type] in E. destruct (return_type e ps args) as [u| |] eqn:Eu; simpl in E; try discriminate.
        inversion E; subst. constructor. apply (IH u Hn); auto.
    - intros n v k x IHk IHx t [Hn1 Hn2]. split.
      + inversion 1; subst. cbn [return_type]. rewrite (proj1 (IHk _ Hn1) H5). simpl bind.
        rewrite (proj1 (IHx _ Hn2) H6). reflexivity.
      + intros [Hp1 Hp2] E. cbn [return_type] in E. destruct (return_type k ps args) as [u| |] eqn:Eu; simpl in E; try discriminate.
        destruct (return_type x ps args) as [w| |] eqn:Ew; simpl in E; try discriminate.
        inversion E; subst. constructor; [apply (IHk u Hn1) | apply (IHx w Hn2)]; auto.
    - intros n v fs IH t Hn. simpl in Hn. split.
      + inversion 1; subst. cbn [return_type]. rewrite (proj1 (ret_list fs IH Hn _) H4). reflexivity.
      + intros Hp E. cbn [return_type] in E.
        destruct (mapM (fun f => return_type f ps args) fs) as [ts| |] eqn:Em; simpl in E; try discriminate.
        inversion E; subst. constructor. apply (ret_list fs IH Hn); auto.
    - intros n l r IH IHr t [Hn1 Hn2]. split.
      + inversion 1; subst. cbn [return_type]. rewrite (proj1 (ret_list l IH Hn1 _) H4). simpl bind.
        rewrite (proj1 (IHr _ Hn2) H5). reflexivity.
      + intros [Hp1 Hp2] E. cbn [return_type] in E.
        destruct (mapM (fun f => return_type f ps args) l) as [ts| |] eqn:Em; simpl in E; try discriminate.
        destruct (return_type r ps args) as [w| |] eqn:Ew; simpl in E; try discriminate.
        inversion E; subst. constructor; [apply (ret_list l IH Hn1) | apply (IHr w Hn2)]; auto.
    - intros n v l name IH t Hn. simpl in Hn. split.
      + inversion 1; subst. change (return_type (FUser n v l name) ps args) with
          (let! qs := mapM ret_param l in Ok (TUser n 0 0 qs)).
        rewrite (proj1 (ret_params l IH Hn _) H5). reflexivity.
      + intros Hp E. change (return_type (FUser n v l name) ps args) with
          (let! qs := mapM ret_param l in Ok (TUser n 0 0 qs)) in E.
        destruct (mapM ret_param l) as [ts| |] eqn:Em; simpl in E; try discriminate.
        inversion E; subst. constructor. apply (ret_params l IH Hn); auto.
    - intros l f IH t Hn. split; [|intros []]. intros R.
      change (return_type (FDeriv l f) ps args) with
        (let! vs := derivation_params ps args l (get_params f) in with_parameters f vs).
      inversion R as [| | | | | | | | | | |l0 p n v g' Rr|l0 k n v i z g' Rr Hz|l0 n v p s zp zs g' Rr Hp Hs]; subst.
      + destruct (derivation_params_eq ps args g l g' (get_params (FPrim p n v)) Hfit Hvars Rr) as [s [Hd He]].
        rewrite Hd. reflexivity.
      + destruct (derivation_params_eq ps args g l g' (get_params (FSingle k n v i)) Hfit Hvars Rr) as [s [Hd He]].
        rewrite Hd. apply (single_numeral s g' k n v i _ He Hn). eauto.
      + destruct (derivation_params_eq ps args g l g' (get_params (FDecimal n v p s)) Hfit Hvars Rr) as [st [Hd He]].
        rewrite Hd. destruct Hn. apply (decimal_numeral st g' n v p s _ He); auto. eauto.
  Qed.

  (** a derivation that returns a decimal or a one-parameter type returns what the
      program says, unless it overflows *)
  Lemma derivation_sound : forall l f t,
    match f with FPrim _ _ _ | FSingle _ _ _ _ | FDecimal _ _ _ _ => True | _ => False end ->
    numbers32 f -> return_type (FDeriv l f) ps args = Ok t ->
    result g h (FDeriv l f) t \/ overflows_in g l.
  Proof.
    intros l f t Hf Hn E.
    change (return_type (FDeriv l f) ps args) with
        (let! vs := derivation_params ps args l (get_params f) in with_parameters f vs) in E.
    unfold derivation_params in E.
    destruct (build_symtab_ok ps args g Hfit Hvars) as [s [Hs He]]. rewrite Hs in E. simpl bind in E.
    destruct (run_assignments l s) as [s'| |] eqn:Er; simpl bind in E; try discriminate.
    destruct (runs_run l s s' Er g He) as [[g' [R He']]|O]; [left|right; auto].
    destruct f; try contradiction.
    - simpl in E. inversion E. econstructor; eauto.
    - simpl in Hn. apply (single_numeral s' g' _ _ _ _ _ He' Hn) in E. destruct E as [z [Hz ->]].
      econstructor; eauto.
    - destruct Hn. apply (decimal_numeral s' g' _ _ _ _ _ He') in E; auto.
      destruct E as (zp & zs & H1 & H2 & ->). econstructor; eauto.
  Qed.
End Result.

(** A conflict between two arguments is an error. *)
Lemma conflict_error : forall ps args x v w, fits_params ps args ->
  bound ps args x v -> bound ps args x w -> v <> w -> build_symtab ps args [] = Err.
Proof.
  intros ps args x v w Hf Hv Hw Hne. pose proof (build_symtab_env ps args Hf) as B.
  destruct (build_symtab ps args []) as [s| |]; auto; [exfalso|contradiction].
  apply B in Hv. apply B in Hw. congruence.
Qed.

(** ** C08: nullability of the result *)

Lemma validate_type_bool : forall p a nh b, validate_type p a nh = Ok b ->
  (b = true <-> forall f, p = PValue f -> outer_nullability a = NullRequired).
Proof.
  intros p a nh b H. destruct p as [f|nm o|f]; simpl in H; try discriminate.
  - assert (E : b = Z.eqb (get_nullability a) NullRequired).
    { destruct nh; try (inversion H; rewrite negb_involutive; auto; fail).
      destruct (Bool.eqb _ _); inversion H. rewrite negb_involutive; auto. }
    subst b. rewrite Z.eqb_eq, outer_nullability_eq. split; eauto.
  - destruct a; try discriminate. destruct is_common; inversion H. split; auto. intros _ f; discriminate.
Qed.

Lemma validate_all_bool : forall nh l m b, validate_all nh l m = Ok b ->
  (b = true <-> AllZip (fun p a => forall f, p = PValue f -> outer_nullability a = NullRequired) l m).
Proof.
  intros nh l. induction l as [|p l IH]; intros [|a m] b H; simpl in H |- *;
    try (inversion H; subst; tauto).
  destruct (validate_type p a nh) as [b1| |] eqn:E1; simpl in H; try discriminate.
  destruct (validate_all nh l m) as [b2| |] eqn:E2; simpl in H; try discriminate.
  inversion H; subst. rewrite andb_true_iff, (validate_type_bool _ _ _ _ E1), (IH _ _ E2). tauto.
Qed.

Lemma AllZip_app : forall A B (P : A -> B -> Prop) l l' m m', List.length l = List.length m ->
  (AllZip P (l ++ l')%list (m ++ m')%list <-> AllZip P l m /\ AllZip P l' m').
Proof.
  intros A B P l. induction l as [|x l IH]; intros l' [|y m] m' H; simpl in *; try lia; [tauto|].
  rewrite IH by lia. tauto.
Qed.

Lemma value_args_zip : forall params args, params <> [] ->
  (value_args_required params args <->
   AllZip (fun p a => forall f, p = PValue f -> outer_nullability a = NullRequired)
     (params ++ repeat (last params (PEnum "" [])) (List.length args - List.length params))%list args).
Proof.
  intros params args Hne. rewrite AllZip_nth.
  assert (Hd : forall i, (i < List.length args)%nat ->
    nth_error (params ++ repeat (last params (PEnum "" [])) (List.length args - List.length params))%list i
    = declared_for params i).
  { intros i Hi. unfold declared_for. destruct (nth_error params i) eqn:E.
    - rewrite nth_error_app1; auto. apply nth_error_Some. congruence.
    - apply nth_error_None in E. rewrite nth_error_app2 by lia. rewrite nth_error_repeat by lia.
      destruct (rev params) as [|p0 init] eqn:R.
      + exfalso. apply Hne. rewrite <- (rev_involutive params), R. reflexivity.
      + apply nth_error_rev_last in R. destruct R as [R1 R2]. rewrite R2. f_equal.
        rewrite R1. apply last_last. }
  split.
  - intros H i p a Hp Ha f ->. apply (H i f a); auto. rewrite <- Hd; auto. apply nth_error_Some. congruence.
  - intros H i f a Hf Ha. apply (H i (PValue f) a) with f; auto. rewrite Hd; auto. apply nth_error_Some. congruence.
Qed.

Lemma AllZip_short : forall A B (P : A -> B -> Prop) l l' m, (List.length m <= List.length l)%nat ->
  (AllZip P (l ++ l')%list m <-> AllZip P l m).
Proof.
  intros A B P l. induction l as [|x l IH]; intros l' [|y m] H; simpl in *; try lia; try tauto.
  - destruct l'; tauto.
  - rewrite IH by lia. tauto.
Qed.

Lemma all_non_null_spec : forall nh params vb args b, all_looked_at params vb args ->
  all_non_null nh params vb args = Ok b -> (b = true <-> value_args_required params args).
Proof.
  intros nh params vb args b Hl H. unfold all_non_null in H.
  destruct (validate_all nh params args) as [b1| |] eqn:E1; simpl bind in H; try discriminate.
  pose proof (validate_all_bool _ _ _ _ E1) as H1.
  assert (Hshort : (List.length args <= List.length params)%nat -> params <> [] -> b = b1 ->
            (b = true <-> value_args_required params args)).
  { intros Hle Hne ->. rewrite value_args_zip, AllZip_short by auto. auto. }
  destruct vb as [v|]; simpl in Hl.
  - destruct Hl as [Hne Hl]. destruct (v_consistency v) eqn:Ec.
    + destruct (Nat.ltb (List.length params) (List.length args)) eqn:E.
      * apply Nat.ltb_lt in E.
        destruct (rev params) as [|p0 init] eqn:R; [discriminate|].
        destruct (validate_all nh _ (skipn (List.length params) args)) as [b2| |] eqn:E2; simpl bind in H; try discriminate.
        inversion H; subst b. rewrite andb_true_iff, H1, (validate_all_bool _ _ _ _ E2).
        rewrite value_args_zip by auto.
        apply nth_error_rev_last in R. destruct R as [R1 _].
        assert (Hlast : last params (PEnum "" []) = p0) by (rewrite R1; apply last_last).
        rewrite skipn_length, Hlast.
        assert (Hcut : forall P : fparam -> ty -> Prop, AllZip P params args <->
                  AllZip P params (firstn (List.length params) args)).
        { intros P. clear. revert args. induction params as [|x l IH]; intros [|y m]; simpl; try tauto.
          rewrite IH. tauto. }
        rewrite Hcut, <- AllZip_app by (rewrite firstn_length; lia).
        rewrite firstn_skipn. tauto.
      * apply Nat.ltb_ge in E. apply Hshort; auto. congruence.
    + destruct Hl as [?|Hl]; [discriminate|]. apply Hshort; auto. congruence.
  - destruct params as [|p0 params0].
    + destruct args; [|discriminate]. inversion H; subst. rewrite H1. simpl. split; auto.
      intros _ i f a _ Ha. destruct i; discriminate.
    + apply Hshort; try lia; try discriminate. congruence.
Qed.

Lemma match_sound : forall nh params vb args, Forall arg_type args -> (params <> [] \/ vb = None) ->
  match_arguments nh params vb args = Ok true ->
  count_ok (List.length params) vb (List.length args) /\ consistent_args (List.length params) vb args /\
  positions_ok vb (List.length args) /\
  exists fs, Forall2 (fun p f => param_type p = Some f) params fs /\ each_accepted nh fs args.
Proof.
  intros nh params vb args Ha Hne. rewrite match_arguments_unfold.
  pose proof (count_stage_spec params vb args Ha Hne) as Hcs.
  destruct (count_stage params vb args) as [[|]| |]; simpl bind; try discriminate.
  destruct (proj1 Hcs eq_refl) as [Hc Hcons]. cbn [negb].
  destruct (func_defs params) as [fs| |] eqn:Hfs; try discriminate.
  destruct (match_each args 0 nh fs vb) as [[|]| |] eqn:Em; simpl bind; try discriminate. intros _.
  apply func_defs_spec in Hfs. pose proof (Forall2_len _ _ _ _ _ Hfs) as Hlen.
  rewrite Hlen in Hc. apply (match_each_split nh fs vb args Hc) in Em. destruct Em as [Hp Hacc].
  rewrite <- Hlen in Hc. repeat split; eauto.
Qed.

Lemma evaluate_inv : forall urn nh ret params vb args s s' t,
  evaluate_type_expression urn nh ret params vb args s = Ok (s', t) ->
  exists b u t1,
    check_count (List.length params) (List.length args) vb = Ok tt /\
    all_non_null nh params vb args = Ok b /\
    match_arguments nh params vb args = Ok true /\
    return_type ret (map type_expression params) args = Ok u /\
    set_udt_reference urn ret u s = Ok (s', t1) /\
    t = result_nullability nh b t1.
Proof.
  intros urn nh ret params vb args s s' t H. unfold evaluate_type_expression in H.
  destruct (check_count _ _ _) as [[]| |]; simpl bind in H; try discriminate.
  destruct (all_non_null nh params vb args) as [b| |]; simpl bind in H; try discriminate.
  destruct (match_arguments nh params vb args) as [[|]| |]; simpl bind in H; cbn [negb] in H; try discriminate.
  destruct (return_type ret _ args) as [u| |]; simpl bind in H; try discriminate.
  destruct (set_udt_reference urn ret u s) as [[s1 t1]| |] eqn:E; simpl bind in H; try discriminate.
  inversion H; subst. exists b, u, t1. repeat split; auto.
Qed.

Lemma check_count_spec : forall nparams nargs vb,
  (check_count nparams nargs vb = Ok tt <-> count_ok nparams vb nargs) /\
  (check_count nparams nargs vb = Ok tt \/ check_count nparams nargs vb = Err).
Proof.
  intros nparams nargs [v|]; unfold check_count, count_ok.
  - destruct (Z.ltb _ 0) eqn:E.
    + apply Z.ltb_lt in E. split; auto. split; [discriminate|]. lia.
    + apply Z.ltb_ge in E. destruct (valid_count v _) eqn:V; unfold valid_count in V; cbn [negb].
      * rewrite andb_true_iff, orb_true_iff, !Z.leb_le, Z.eqb_eq in V. split; auto. split; auto. lia.
      * rewrite andb_false_iff, orb_false_iff, !Z.leb_gt, Z.eqb_neq in V. split; auto. split; [discriminate|]. lia.
  - destruct (Nat.eqb nparams nargs) eqn:E.
    + apply Nat.eqb_eq in E. split; auto. split; auto.
    + apply Nat.eqb_neq in E. split; auto. split; [discriminate|]. lia.
Qed.

Lemma set_reference_spec : forall urn ret u s s' t, set_udt_reference urn ret u s = Ok (s', t) ->
  (s' = s /\ t = u /\ forall n v l name, ret = FUser n v l name -> forall n' v' r qs, u <> TUser n' v' r qs) \/
  (exists n v l name n' v' r qs a, ret = FUser n v l name /\ u = TUser n' v' r qs /\
     get_type_anchor (ExtId urn name) s = Ok (s', a) /\ t = TUser n' v' a qs).
Proof.
  intros urn ret u s s' t H. unfold set_udt_reference in H.
  destruct u; try (inversion H; subst; left; repeat split; auto; discriminate).
  destruct ret; try (inversion H; subst; left; repeat split; auto; discriminate).
  destruct (get_type_anchor (ExtId urn name) s) as [[s1 a]| |] eqn:E; simpl in H; try discriminate.
  inversion H; subst. right. do 9 eexists. repeat split; eauto.
Qed.

Lemma set_reference_nullability : forall urn ret u s s' t, set_udt_reference urn ret u s = Ok (s', t) ->
  outer_nullability t = outer_nullability u.
Proof.
  intros urn ret u s s' t H. apply set_reference_spec in H.
  destruct H as [(_ & -> & _)|(n & v & l & name & n' & v' & r & qs & a & -> & -> & _ & ->)]; auto.
Qed.

Definition not_any (f : fdt) : Prop := match f with FAny _ _ _ => False | _ => True end.

Lemma with_parameters_nullability : forall f vs t, with_parameters f vs = Ok t ->
  outer_nullability t = declared_nullability f.
Proof.
  intros f vs t H. destruct f; cbn [with_parameters] in H; try discriminate.
  - inversion H; auto.
  - unfold single_with_parameters in H. destruct vs as [|a [|b vs]]; try (destruct i; inversion H; destruct k; auto; fail).
    destruct a; inversion H; destruct k; auto.
  - unfold decimal_with_parameters in H.
    destruct vs as [|a [|b [|c vs]]]; try (destruct precision; destruct scale; inversion H; auto; fail).
    destruct a; try discriminate. destruct b; inversion H; auto.
  - destruct vs as [|[] [|]]; inversion H; auto.
  - destruct vs as [|a [|b [|c vs]]].
    4: { destruct (has_param f1 || has_param f2); [discriminate|].
      destruct (return_type f1 [] []); simpl in H; try discriminate.
      destruct (return_type f2 [] []); inversion H; auto. }
    1, 2: destruct (has_param f1 || has_param f2); [discriminate|];
      destruct (return_type f1 [] []); simpl in H; try discriminate;
      destruct (return_type f2 [] []); inversion H; auto.
    destruct a; try discriminate. destruct b; inversion H; auto.
  - destruct (negb _); [discriminate|].
    match type of H with (let! ts := ?x in _) = _ => destruct x; simpl in H; inversion H; auto end.
  - match type of H with (let! ts := ?x in _) = _ => destruct x; simpl in H; try discriminate end.
    match type of H with (let! ts := ?x in _) = _ => destruct x; simpl in H; inversion H; auto end.
  - destruct (negb _); [discriminate|].
    match type of H with (let! ts := ?x in _) = _ => destruct x; simpl in H; inversion H; auto end.
Qed.

Lemma return_type_nullability : forall f ps args t, not_any f -> return_type f ps args = Ok t ->
  outer_nullability t = declared_nullability f.
Proof.
  intros f ps args t Hn H. destruct f; try contradiction.
  - inversion H; auto.
  - inversion H; auto.
  - rewrite return_single in H. destruct (is_var i).
    + destruct (derivation_params ps args [] _) as [vs| |]; simpl bind in H; try discriminate.
      apply (with_parameters_nullability (FSingle k n v i) vs t H).
    + apply (with_parameters_nullability (FSingle k n v i) [] t H).
  - rewrite return_decimal in H. destruct (is_var precision || is_var scale).
    + destruct (derivation_params ps args [] _) as [vs| |]; simpl bind in H; try discriminate.
      apply (with_parameters_nullability (FDecimal n v precision scale) vs t H).
    + apply (with_parameters_nullability (FDecimal n v precision scale) [] t H).
  - cbn [return_type] in H. destruct (return_type f ps args); inversion H; auto.
  - cbn [return_type] in H. destruct (return_type f1 ps args); simpl in H; try discriminate.
    destruct (return_type f2 ps args); inversion H; auto.
  - cbn [return_type] in H.
    match type of H with (let! ts := ?x in _) = _ => destruct x; simpl in H; inversion H; auto end.
  - cbn [return_type] in H.
    match type of H with (let! ts := ?x in _) = _ => destruct x; simpl in H; try discriminate end.
    match type of H with (let! ts := ?x in _) = _ => destruct x; simpl in H; inversion H; auto end.
  - cbn [return_type] in H.
    match type of H with (let! ts := ?x in _) = _ => destruct x; simpl in H; inversion H; auto end.
  - change (return_type (FDeriv assignments f) ps args) with
        (let! vs := derivation_params ps args assignments (get_params f) in with_parameters f vs) in H.
    destruct (derivation_params ps args assignments (get_params f)) as [vs| |]; simpl bind in H; try discriminate.
    simpl. eapply with_parameters_nullability; eauto.
Qed.

(** Evaluation of an accepted call succeeds when its result type does. *)
Definition specified (args : list ty) : Prop :=
  Forall (fun a => outer_nullability a = NullNullable \/ outer_nullability a = NullRequired) args.

Lemma accepts_null : forall nh f a, accepts nh f a -> nh = NHDiscrete ->
  declared_nullability f = outer_nullability a.
Proof.
  intros nh f a H ->. destruct H as [_ H]. destruct f; simpl in H; tauto.
Qed.

Lemma validate_type_total : forall nh p f a, param_type p = Some f -> accepts nh f a ->
  (forall nm o, p = PEnum nm o -> exists n v s l, a = TEnum true n v s l) ->
  (outer_nullability a = NullNullable \/ outer_nullability a = NullRequired \/ exists nm o, p = PEnum nm o) ->
  exists b, validate_type p a nh = Ok b.
Proof.
  intros nh p f a Hp Ha He Hs. destruct p as [g|nm o|g]; simpl in Hp; try discriminate.
  - inversion Hp; subst g. simpl. destruct nh; try (eexists; reflexivity).
    pose proof (accepts_null _ _ _ Ha eq_refl) as Hd.
    rewrite declared_nullability_eq, Hd, outer_nullability_eq.
    destruct Hs as [E|[E|(nm & o & E)]]; [| |discriminate]; rewrite E; simpl; eexists; reflexivity.
  - destruct (He nm o eq_refl) as (n & v & s & l & ->). simpl. eauto.
Qed.

Lemma validate_all_total : forall nh l m, 
  AllZip (fun p a => exists b, validate_type p a nh = Ok b) l m -> exists b, validate_all nh l m = Ok b.
Proof.
  intros nh l. induction l as [|p l IH]; intros [|a m] H; simpl in *; eauto.
  destruct H as [[b Hb] H]. rewrite Hb. simpl. destruct (IH m H) as [b' Hb']. rewrite Hb'. simpl. eauto.
Qed.

Lemma declared_param : forall params fs i f, Forall2 (fun p f => param_type p = Some f) params fs ->
  declared_for fs i = Some f -> exists p, declared_for params i = Some p /\ param_type p = Some f.
Proof.
  intros params fs i f H Hf.
  assert (Hn : forall j g, nth_error fs j = Some g -> exists p, nth_error params j = Some p /\ param_type p = Some g).
  { clear Hf. induction H; intros [|j] g Hg; simpl in *; try discriminate; [inversion Hg; subst; eauto | eauto]. }
  assert (Hnone : forall j, nth_error fs j = None -> nth_error params j = None).
  { intros j. rewrite !nth_error_None. rewrite (Forall2_len _ _ _ _ _ H). auto. }
  unfold declared_for in *. rewrite (Forall2_len _ _ _ _ _ H). destruct (nth_error fs i) as [g|] eqn:E.
  - destruct (Hn i g E) as [p [Hp Ht]]. rewrite Hp. inversion Hf; subst. eauto.
  - rewrite (Hnone i E). apply Hn; auto.
Qed.

Lemma evaluate_complete : forall urn nh ret params vb args s u,
  Forall arg_type args -> (params <> [] \/ vb = None) ->
  match_arguments nh params vb args = Ok true ->
  enum_args_ok params args ->
  (forall i f a, declared_for params i = Some (PValue f) -> nth_error args i = Some a ->
     outer_nullability a = NullNullable \/ outer_nullability a = NullRequired) ->
  return_type ret (map type_expression params) args = Ok u ->
  (forall n v l name, ret <> FUser n v l name) ->
  exists b, evaluate_type_expression urn nh ret params vb args s = Ok (s, result_nullability nh b u).
Proof.
  intros urn nh ret params vb args s u Ha Hne Hm He Hs Hr Hu.
  destruct (match_sound nh params vb args Ha Hne Hm) as (Hc & _ & _ & fs & Hfs & Hacc).
  assert (Hv : forall i p a, declared_for params i = Some p -> nth_error args i = Some a ->
            exists b, validate_type p a nh = Ok b).
  { intros i p a Hp Hia. destruct (Hacc i a Hia) as [f [Hf Hacf]].
    destruct (declared_param params fs i f Hfs Hf) as [p' [Hp' Ht]].
    assert (p' = p) by congruence. subst p'.
    apply (validate_type_total nh p f a Ht Hacf).
    - intros nm o ->. eapply He; eauto.
    - destruct p as [g|nm o|g].
      + destruct (Hs i g a Hp Hia); auto.
      + right; right; eauto.
      + discriminate. }
  assert (Hb : exists b, all_non_null nh params vb args = Ok b).
  { unfold all_non_null. 
    assert (H1 : exists b, validate_all nh params args = Ok b).
    { apply validate_all_total. rewrite AllZip_nth. intros i p a Hp Hia. apply (Hv i); auto.
      unfold declared_for. rewrite Hp. auto. }
    destruct H1 as [b1 H1]. rewrite H1. simpl bind. destruct vb as [v|]; eauto.
    destruct (v_consistency v); eauto.
    destruct (Nat.ltb (List.length params) (List.length args)) eqn:E; eauto.
    apply Nat.ltb_lt in E.
    destruct (rev params) as [|p0 init] eqn:R.
    - exfalso. destruct Hne as [Hne|]; [|discriminate]. apply Hne. rewrite <- (rev_involutive params), R. auto.
    - apply nth_error_rev_last in R. destruct R as [R1 R2].
      assert (H2 : exists b, validate_all nh (repeat p0 (List.length (skipn (List.length params) args)))
                     (skipn (List.length params) args) = Ok b).
      { apply validate_all_total. rewrite AllZip_nth. intros i p a Hp Hia.
        rewrite nth_error_skipn' in Hia. 
        assert (p = p0) by (apply nth_error_In, repeat_spec in Hp; auto). subst p.
        apply (Hv (List.length params + i)%nat); auto. unfold declared_for.
        destruct (nth_error params (List.length params + i)) eqn:N; auto.
        assert (List.length params + i < List.length params)%nat by (apply nth_error_Some; congruence). lia. }
      destruct H2 as [b2 H2]. rewrite H2. simpl. eauto. }
  destruct Hb as [b Hb]. exists b. unfold evaluate_type_expression.
  rewrite (proj2 (proj1 (check_count_spec _ _ _)) Hc). simpl bind. rewrite Hb. simpl bind. rewrite Hm. simpl bind.
  cbn [negb]. rewrite Hr. simpl bind. unfold set_udt_reference.
  destruct u; try reflexivity. destruct ret; try reflexivity. exfalso. eapply Hu; eauto.
Qed.
