(** C79: builders as objects.  Proofs and theorems. *)

From Coq Require Import ZArith String Bool List Lia PeanoNat.
From Verif Require Import Base FMap TypesModel ExtSetModel LoadModel LitModel ExprModel ExprOpsModel FluentModel FluentSpec.
From Verif Require ExprProps.
Import ListNotations.
Local Open Scope Z_scope.

(** ** the last value given *)

Lemma latest_none : forall {K A} (g : K -> A -> Prop) i, latest g i [] i.
Proof. intros. right. split; [intros k y []|reflexivity]. Qed.
Lemma latest_hit : forall {K A} (g : K -> A -> Prop) i l k x, g k x -> latest g i (l ++ [k]) x.
Proof. intros K A g i l k x H. left. exists l, k, []. split; [reflexivity|]. split; [exact H|intros k' y []]. Qed.
Lemma latest_miss : forall {K A} (g : K -> A -> Prop) i l k x, (forall y, ~ g k y) -> latest g i l x -> latest g i (l ++ [k]) x.
Proof.
  intros K A g i l k x N [(b & k0 & a & -> & G & L)|[L ->]].
  - left. exists b, k0, (a ++ [k])%list. rewrite <- app_assoc. split; [reflexivity|]. split; [exact G|].
    intros k' y I. apply in_app_or in I. destruct I as [I|[<-|[]]]; [apply L, I|apply N].
  - right. split; [|reflexivity]. intros k' y I. apply in_app_or in I. destruct I as [I|[<-|[]]]; [apply L, I|apply N].
Qed.
(** There is one such value, if no call gives two. *)
Theorem C79_latest_unique : forall K A (g : K -> A -> Prop) i l x y, (forall k a b, g k a -> g k b -> a = b) -> latest g i l x -> latest g i l y -> x = y.
Proof.
  intros K A g i l x y F. revert x y. induction l as [|k l IH] using rev_ind; intros x y H1 H2.
  - destruct H1 as [(b & k & a & E & _)|[_ ->]]; [destruct b; discriminate|]. destruct H2 as [(b & k & a & E & _)|[_ ->]]; [destruct b; discriminate|reflexivity].
  - assert (INV : forall z, latest g i (l ++ [k]) z -> g k z \/ ((forall u, ~ g k u) /\ latest g i l z)).
    { intros z [(b & k0 & a & E & G & L)|[L ->]].
      - induction a as [|k1 a _] using rev_ind.
        + apply app_inj_tail in E. destruct E as [-> ->]. left. exact G.
        + rewrite app_comm_cons, app_assoc in E. apply app_inj_tail in E. destruct E as [-> ->]. right.
          split; [intros u; apply L, in_or_app; right; left; reflexivity|]. left. exists b, k0, a. split; [reflexivity|]. split; [exact G|].
          intros k' u I. apply L, in_or_app. left. exact I.
      - right. split; [intros u; apply L, in_or_app; right; left; reflexivity|]. right. split; [|reflexivity]. intros k' u I. apply L, in_or_app. left. exact I. }
    destruct (INV x H1) as [G1|[N1 L1]], (INV y H2) as [G2|[N2 L2]]; [exact (F _ _ _ G1 G2)|destruct (N2 _ G1)|destruct (N1 _ G2)|exact (IH _ _ L1 L2)].
Qed.

Section Histories.
Context {R : Type}.
Implicit Types (h : heap R) (k : fcall R) (n : node R).

(** what a call does to builder [b] *)
Definition touch (b : nat) k n : node R :=
  match k with
  | SetFail x z => if Nat.eqb x b then set_fail z n else n
  | SetArgs x l => if Nat.eqb x b then set_args l n else n
  | SetPhase x z => if Nat.eqb x b then set_phase z n else n
  | SetInvocation x z => if Nat.eqb x b then set_invocation z n else n
  | SetSort x l => if Nat.eqb x b then set_sort l n else n
  | SetPartitions x l => if Nat.eqb x b then set_partitions l n else n
  | SetBounds x lo hi => if Nat.eqb x b then set_bounds lo hi n else n
  | SetBoundsType x z => if Nat.eqb x b then set_bounds_type z n else n
  | _ => n
  end.
Lemma change_nth : forall f x h b, nth_error (change x f h) b = if Nat.eqb x b then option_map f (nth_error h b) else nth_error h b.
Proof.
  intros f. induction x as [|x IH]; intros [|n h] [|b]; cbn; try reflexivity.
  - destruct (Nat.eqb x b); reflexivity.
  - rewrite IH. reflexivity.
Qed.
Lemma change_length : forall f x h, List.length (change x f h) = List.length h.
Proof. intros f. induction x as [|x IH]; intros [|n h]; cbn; try reflexivity. rewrite IH. reflexivity. Qed.
Lemma fstep_nth : forall k h b n, nth_error h b = Some n -> nth_error (fstep h k) b = Some (touch b k n).
Proof.
  intros k h b n E. assert (L : (b < List.length h)%nat) by (apply nth_error_Some; congruence).
  destruct k; cbn [fstep touch]; try (rewrite nth_error_app1; assumption); rewrite change_nth, E; destruct (Nat.eqb _ b); reflexivity.
Qed.
Lemma fold_nth : forall l h b n, nth_error h b = Some n -> nth_error (fold_left fstep l h) b = Some (fold_left (fun n k => touch b k n) l n).
Proof. induction l as [|k l IH]; intros h b n E; cbn; [exact E|]. apply IH, fstep_nth, E. Qed.

Definition made k : option (node R) :=
  match k with
  | MkWrap e failed => Some (NWrap e failed)
  | MkRef r f => Some (NRef r f)
  | MkLamRef i l n => Some (NLamRef i l n)
  | MkCast b t => Some (NCast b t 0)
  | MkParam t n => Some (NParam t n)
  | MkScalar id opts => Some (NScalar id opts [])
  | MkWindow id opts => Some (NWindow id opts [] 0 0 [] [] 0 None None)
  | MkAgg id opts => Some (NAgg id opts [] 0 0 [])
  | MkLambda ps body => Some (NLambda ps body)
  | _ => None
  end.
Lemma fstep_made : forall k h n, made k = Some n -> fstep h k = (h ++ [n])%list.
Proof. intros k h n E. destruct k; cbn in *; congruence. Qed.
Lemma frun_made : forall before k after n, made k = Some n ->
  nth_error (frun (before ++ k :: after)) (List.length (frun before)) = Some (fold_left (fun n k' => touch (List.length (frun before)) k' n) after n).
Proof.
  intros before k after n E. unfold frun. rewrite fold_left_app. cbn [fold_left]. apply fold_nth. rewrite (fstep_made _ _ _ E).
  rewrite nth_error_app2 by lia. rewrite Nat.sub_diag. reflexivity.
Qed.

Ltac settled := first [apply latest_hit; reflexivity | apply latest_miss; [intros y0; congruence|assumption]].
Ltac each_call k b :=
  destruct k; cbn [touch]; try match goal with |- context [Nat.eqb ?x b] => destruct (Nat.eqb_spec x b) as [->|?] end;
  cbn [set_fail set_args set_phase set_invocation set_sort set_partitions set_bounds set_bounds_type].

(** The builder of a scalar function has the function and options it was made with and the arguments of the last call of [Args]. *)
Theorem C79_scalar : forall before after id opts, let b := List.length (@frun R before) in
  exists args, latest (fun k x => k = SetArgs b x) [] after args /\
    nth_error (frun (before ++ MkScalar id opts :: after)) b = Some (NScalar id opts args).
Proof.
  intros before after id opts b. subst b. rewrite (frun_made before (MkScalar id opts) after _ eq_refl). generalize (List.length (frun before)) as b. clear before. intros b.
  induction after as [|k l IH] using rev_ind; [eexists; split; [apply latest_none|reflexivity]|].
  destruct IH as (args & A & E). rewrite fold_left_app. cbn [fold_left]. injection E as E. rewrite E.
  each_call k b; eexists; (split; [|reflexivity]); settled.
Qed.
(** That of a window function likewise, each property being that of the last call that gives it. *)
Theorem C79_window : forall before after id opts, let b := List.length (@frun R before) in
  exists args phase inv parts sorts bt lo hi,
    latest (fun k x => k = SetArgs b x) [] after args /\
    latest (fun k x => k = SetPhase b x) 0 after phase /\
    latest (fun k x => k = SetInvocation b x) 0 after inv /\
    latest (fun k x => k = SetPartitions b x) [] after parts /\
    latest (fun k x => k = SetSort b x) [] after sorts /\
    latest (fun k x => k = SetBoundsType b x) 0 after bt /\
    latest (fun k x => k = SetBounds b (fst x) (snd x)) (None, None) after (lo, hi) /\
    nth_error (frun (before ++ MkWindow id opts :: after)) b = Some (NWindow id opts args phase inv parts sorts bt lo hi).
Proof.
  intros before after id opts b. subst b. rewrite (frun_made before (MkWindow id opts) after _ eq_refl). generalize (List.length (frun before)) as b. clear before. intros b.
  induction after as [|k l IH] using rev_ind; [do 8 eexists; repeat (split; [apply latest_none|]); reflexivity|].
  destruct IH as (args & ph & inv & parts & sorts & bt & lo & hi & A & P & I & PS & S & BT & BD & E). rewrite fold_left_app. cbn [fold_left]. injection E as E. rewrite E.
  each_call k b; do 8 eexists; (do 7 (split; [shelve|])); reflexivity.
  Unshelve. all: settled.
Qed.
(** That of an aggregate function. *)
Theorem C79_aggregate : forall before after id opts, let b := List.length (@frun R before) in
  exists args phase inv sorts,
    latest (fun k x => k = SetArgs b x) [] after args /\
    latest (fun k x => k = SetPhase b x) 0 after phase /\
    latest (fun k x => k = SetInvocation b x) 0 after inv /\
    latest (fun k x => k = SetSort b x) [] after sorts /\
    nth_error (frun (before ++ MkAgg id opts :: after)) b = Some (NAgg id opts args phase inv sorts).
Proof.
  intros before after id opts b. subst b. rewrite (frun_made before (MkAgg id opts) after _ eq_refl). generalize (List.length (frun before)) as b. clear before. intros b.
  induction after as [|k l IH] using rev_ind; [do 4 eexists; repeat (split; [apply latest_none|]); reflexivity|].
  destruct IH as (args & ph & inv & sorts & A & P & I & S & E). rewrite fold_left_app. cbn [fold_left]. injection E as E. rewrite E.
  each_call k b; do 4 eexists; (do 4 (split; [shelve|])); reflexivity.
  Unshelve. all: settled.
Qed.
(** That of a cast. *)
Theorem C79_cast : forall before after x t, let b := List.length (@frun R before) in
  exists fb, latest (fun k z => k = SetFail b z) 0 after fb /\ nth_error (frun (before ++ MkCast x t :: after)) b = Some (NCast x t fb).
Proof.
  intros before after x t b. subst b. rewrite (frun_made before (MkCast x t) after _ eq_refl). generalize (List.length (frun before)) as b. clear before. intros b.
  induction after as [|k l IH] using rev_ind; [eexists; split; [apply latest_none|reflexivity]|].
  destruct IH as (args & A & E). rewrite fold_left_app. cbn [fold_left]. injection E as E. rewrite E.
  each_call k b; eexists; (split; [|reflexivity]); settled.
Qed.
(** The other builders stay as they were made. *)
Theorem C79_fixed : forall before after k n, let b := List.length (@frun R before) in
  match k, n with
  | MkWrap e f, NWrap e' f' => e = e' /\ f = f'
  | MkRef r f, NRef r' f' => r = r' /\ f = f'
  | MkLamRef i l s, NLamRef i' l' s' => i = i' /\ l = l' /\ s = s'
  | MkParam t i, NParam t' i' => t = t' /\ i = i'
  | MkLambda p x, NLambda p' x' => p = p' /\ x = x'
  | _, _ => False
  end -> nth_error (frun (before ++ k :: after)) b = Some n.
Proof.
  intros before after k n b H. assert (M : made k = Some n) by (destruct k, n; cbn; intuition congruence).
  subst b. rewrite (frun_made before k after n M). f_equal. generalize (List.length (frun before)) as b0. intros b0.
  induction after as [|k' l IH] using rev_ind; [reflexivity|]. rewrite fold_left_app. cbn [fold_left]. rewrite IH.
  destruct k, n; try contradiction; destruct k'; cbn [touch]; try match goal with |- context [Nat.eqb ?x b0] => destruct (Nat.eqb x b0) end; reflexivity.
Qed.
(** Builders are numbered in the order in which they are made; no other call makes one. *)
Theorem C79_numbers : forall l k,
  List.length (@frun R (l ++ [k])) = match k with
    | MkWrap _ _ | MkRef _ _ | MkLamRef _ _ _ | MkCast _ _ | MkParam _ _ | MkScalar _ _ | MkWindow _ _ | MkAgg _ _ | MkLambda _ _ => S (List.length (frun l))
    | _ => List.length (frun l)
    end.
Proof.
  intros l k. unfold frun. rewrite fold_left_app. cbn [fold_left]. destruct k; cbn [fstep]; rewrite ?app_length, ?change_length; cbn; lia.
Qed.
End Histories.

(** ** building *)

Scheme stands_mut := Minimality for stands Sort Prop
with stand_args_mut := Minimality for stand_args Sort Prop
with stand_all_mut := Minimality for stand_all Sort Prop.
Combined Scheme stands_ind3 from stands_mut, stand_args_mut, stand_all_mut.

Section Building.
Context {R : Type}.
Variable rel_schema : R -> res (list xtype).
Variable short : ty -> string.
Variable resolve : variant -> list xtype -> eset -> res (ty * eset).
Variable c : coll.
Variable base : option (list xtype).
Notation hb := (hbuild rel_schema short resolve c base).
Notation bd := (build rel_schema short resolve c base).
Notation bda := (build_arg rel_schema short resolve c base).

Lemma othen_some : forall {T U} (r : bres T) (k : T -> bstate -> option (bres U)) (k' : T -> bstate -> bres U),
  (forall a s, k a s = Some (k' a s)) -> othen (Some r) k = Some (bthen r k').
Proof. intros T U [[a| |] s] k k' H; cbn; [apply H|reflexivity|reflexivity]. Qed.

Lemma build_stands : forall h,
  (forall b t, stands h b t -> exists n, forall m, (n <= m)%nat -> forall s, hb m h b s = Some (bd t s)) /\
  (forall l r, stand_args h l r -> exists n, forall m, (n <= m)%nat -> forall s, mapO (hbuild_arg (hb m h)) l s = Some (mapB bda r s)) /\
  (forall l r, stand_all h l r -> exists n, forall m, (n <= m)%nat -> forall s, mapO (hb m h) l s = Some (mapB bd r s)).
Proof.
  intros h. apply stands_ind3.
  - intros b e f E. exists 1%nat. intros [|m] L s; [lia|]. cbn [hbuild]. rewrite E. reflexivity.
  - intros b r f E. exists 1%nat. intros [|m] L s; [lia|]. cbn [hbuild]. rewrite E. reflexivity.
  - intros b i l n E. exists 1%nat. intros [|m] L s; [lia|]. cbn [hbuild]. rewrite E. reflexivity.
  - intros b b' t fb x E _ (n & H). exists (S n). intros [|m] L s; [lia|]. cbn [hbuild]. rewrite E, H by lia. apply othen_some. reflexivity.
  - intros b t n E. exists 1%nat. intros [|m] L s; [lia|]. cbn [hbuild]. rewrite E. reflexivity.
  - intros b id opts args xs E _ (n & H). exists (S n). intros [|m] L s; [lia|]. cbn [hbuild]. rewrite E, H by lia. apply othen_some. reflexivity.
  - intros b id opts args xs ph inv parts ys sorts bt lo hi E _ (n & H) _ (n' & H'). exists (S (n + n')). intros [|m] L s; [lia|]. cbn [hbuild]. rewrite E, H by lia.
    apply othen_some. intros a s1. rewrite H' by lia. apply othen_some. intros a' s2. apply othen_some. intros w s3. destruct w; reflexivity.
  - intros b ps b' x E _ (n & H). exists (S n). intros [|m] L s; [lia|]. cbn [hbuild build]. rewrite E. destruct ps as [[[nl v] ts]|]; [|reflexivity].
    destruct (negb (nl =? NullRequired)); [reflexivity|]. destruct (all_some ts) as [ps|]; [|reflexivity]. rewrite H by lia.
    destruct (bd x _) as [[e| |] s1]; reflexivity.
  - intros b ps E. exists 1%nat. intros [|m] L s; [lia|]. cbn [hbuild build]. rewrite E. destruct ps as [[[nl v] ts]|]; [|reflexivity].
    destruct (negb (nl =? NullRequired)); [reflexivity|]. destruct (all_some ts) as [ps|]; reflexivity.
  - exists O. intros m _ s. reflexivity.
  - intros x l r _ (n & H). exists n. intros m L s. cbn [mapO hbuild_arg othen]. rewrite H by lia. cbn [mapB build_arg].
    destruct (mapB bda r s) as [[ys| |] s1]; reflexivity.
  - intros b x l r _ (n & H) _ (n' & H'). exists (n + n')%nat. intros m L s. cbn [mapO hbuild_arg]. rewrite H by lia. cbn [mapB].
    change (bda (BArgExpr x) s) with (bthen (bd x s) (fun e s1 => (Ok (AExpr e), s1))).
    destruct (bd x s) as [[e| |] s1]; cbn [othen bthen]; [|reflexivity|reflexivity]. rewrite H' by lia. destruct (mapB bda r s1) as [[ys| |] s2]; reflexivity.
  - exists O. intros m _ s. reflexivity.
  - intros b x l r _ (n & H) _ (n' & H'). exists (n + n')%nat. intros m L s. cbn [mapO]. rewrite H by lia. cbn [mapB].
    destruct (bd x s) as [[e| |] s1]; cbn [othen]; [|reflexivity|reflexivity]. rewrite H' by lia. destruct (mapB bd r s1) as [[ys| |] s2]; reflexivity.
Qed.

(** more calls allowed make no difference to an answer *)
Lemma othen_mono : forall {T U} (r r' : option (bres T)) (k k' : T -> bstate -> option (bres U)) x,
  (forall y, r = Some y -> r' = Some y) -> (forall a s y, k a s = Some y -> k' a s = Some y) -> othen r k = Some x -> othen r' k' = Some x.
Proof.
  intros T U r r' k k' x H HK. destruct r as [[[a| |] s]|]; cbn; [| | |discriminate]; rewrite (H _ eq_refl); cbn; [apply HK|auto|auto].
Qed.
Lemma mapO_mono : forall {T U} (f g : T -> bstate -> option (bres U)), (forall a s y, f a s = Some y -> g a s = Some y) ->
  forall l s y, mapO f l s = Some y -> mapO g l s = Some y.
Proof.
  intros T U f g H. induction l as [|a l IH]; intros s y; cbn [mapO]; [auto|]. apply othen_mono; [intros z; apply H|]. intros b s1 z. apply othen_mono; [intros w; apply IH|auto].
Qed.
Lemma hbuild_arg_mono : forall (f g : nat -> bstate -> option (bres (expr R))), (forall a s y, f a s = Some y -> g a s = Some y) ->
  forall a s y, hbuild_arg f a s = Some y -> hbuild_arg g a s = Some y.
Proof. intros f g H [b|x] s y; cbn [hbuild_arg]; [|auto]. apply othen_mono; [intros z; apply H|auto]. Qed.
Lemma hbuild_mono : forall n h b s r, hb n h b s = Some r -> forall m, (n <= m)%nat -> hb m h b s = Some r.
Proof.
  induction n as [|n IH]; intros h b s r E m L; [discriminate|]. destruct m as [|m]; [lia|].
  assert (H : forall b s r, hb n h b s = Some r -> hb m h b s = Some r) by (intros; apply IH; [assumption|lia]). revert E. cbn [hbuild].
  destruct (nth_error h b) as [[]|]; auto.
  - apply othen_mono; [intros y; apply H|auto].
  - apply othen_mono; [intros y; apply mapO_mono, hbuild_arg_mono, H|auto].
  - apply othen_mono; [intros y; apply mapO_mono, hbuild_arg_mono, H|]. intros a s1 y. apply othen_mono; [intros z; apply mapO_mono, H|]. intros a' s2 z. auto.
  - destruct params as [[[nl v] ts]|]; auto. destruct (negb (nl =? NullRequired)); auto. destruct (all_some ts); auto. destruct body as [b'|]; auto.
    destruct (hb n h b' _) as [x|] eqn:E; [|discriminate]. rewrite (H _ _ _ E). auto.
Qed.

(** Building returns what the expression described, with the builders it refers to as they are when it is built, builds to. *)
Theorem C79_build : forall h b t s, stands h b t -> forall r, (exists n, hb n h b s = Some r) <-> r = bd t s.
Proof.
  intros h b t s H r. destruct (proj1 (build_stands h) b t H) as (n & B). split.
  - intros (m & E). pose proof (hbuild_mono m h b s r E (m + n)%nat ltac:(lia)) as E1. rewrite (B (m + n)%nat) in E1 by lia. congruence.
  - intros ->. exists n. apply B. lia.
Qed.
(** Building a nil builder, one that was never made, panics. *)
Theorem C79_nil_builder : forall h b s, nth_error h b = None -> forall r, (exists n, hb n h b s = Some r) <-> r = (Panic, s).
Proof.
  intros h b s E r. split.
  - intros ([|n] & H); [discriminate|]. cbn [hbuild] in H. rewrite E in H. congruence.
  - intros ->. exists 1%nat. cbn [hbuild]. rewrite E. reflexivity.
Qed.
(** A builder describes one expression at most. *)
Theorem C79_stands_unique : forall (h : heap R) b t, stands h b t -> forall t', stands h b t' -> t' = t.
Proof.
  intros h b t H. revert b t H. pose (P := fun b t => forall t', stands h b t' -> t' = t).
  assert (A : (forall b t, stands h b t -> P b t) /\ (forall l r, stand_args h l r -> forall r', stand_args h l r' -> r' = r) /\
              (forall l r, stand_all h l r -> forall r', stand_all h l r' -> r' = r)).
  2:{ exact (proj1 A). }
  apply stands_ind3; unfold P.
  1-9: let x := fresh in let X := fresh in intros; match goal with X : stands _ _ ?x |- ?x = _ => inversion X; subst; clear X end; try congruence;
    match goal with H1 : nth_error ?l ?b = Some _, H2 : nth_error ?l ?b = Some _ |- _ => rewrite H1 in H2; injection H2; intros; subst end; f_equal; auto; f_equal; auto.
  - intros r' H. inversion H. reflexivity.
  - intros s l r _ IH r' H. inversion H; subst. f_equal. auto.
  - intros b x l r _ IH1 _ IH2 r' H. inversion H; subst. f_equal; [f_equal|]; auto.
  - intros r' H. inversion H. reflexivity.
  - intros b x l r _ IH1 _ IH2 r' H. inversion H; subst. f_equal; auto.
Qed.

(** Building an aggregate function builds its arguments in order and makes the call. *)
Theorem C79_build_aggregate : forall h b id opts args xs phase inv sorts s,
  nth_error h b = Some (NAgg id opts args phase inv sorts) -> stand_args h args xs ->
  forall r, (exists n, hbuild_agg rel_schema short resolve c base n h b s = Some r) <->
    r = match mapB bda xs s with
        | (Ok args', s1) => blift (new_aggregate_func rel_schema short resolve c id opts inv phase sorts args' (b_set s1)) s1
        | (Err, s1) => (Err, s1)
        | (Panic, s1) => (Panic, s1)
        end.
Proof.
  intros h b id opts args xs phase inv sorts s E H r. destruct (proj1 (proj2 (build_stands h)) args xs H) as (n & B). unfold hbuild_agg. rewrite E. split.
  - intros (m & X). assert (Y : othen (mapO (hbuild_arg (hb (m + n) h)) args s) (fun args' s1 =>
        Some (blift (new_aggregate_func rel_schema short resolve c id opts inv phase sorts args' (b_set s1)) s1)) = Some r).
    { revert X. apply othen_mono; [|auto]. intros y. apply mapO_mono, hbuild_arg_mono. intros a s0 z Z0. eapply hbuild_mono; [exact Z0|lia]. }
    rewrite B in Y by lia. destruct (mapB bda xs s) as [[a| |] s1]; cbn [othen] in Y; congruence.
  - intros ->. exists n. rewrite B by lia. destruct (mapB bda xs s) as [[a| |] s1]; reflexivity.
Qed.

Definition is_agg (h : heap R) (x : nat) : Prop := exists id opts args ph inv sorts, nth_error h x = Some (NAgg id opts args ph inv sorts).
Definition children (n : node R) : list nat :=
  match n with
  | NCast x _ _ => [x]
  | NScalar _ _ args => arg_builders args
  | NWindow _ _ args _ _ parts _ _ _ _ => arg_builders args ++ parts
  | NAgg _ _ args _ _ _ => arg_builders args
  | NLambda _ (Some x) => [x]
  | _ => []
  end%list.
Lemma ordered_stands : forall (h : heap R), (forall b n, nth_error h b = Some n -> forall x, In x (children n) -> (x < b)%nat /\ ~ is_agg h x) ->
  forall b, (b < List.length h)%nat -> ~ is_agg h b -> exists t, stands h b t.
Proof.
  intros h O b. induction b as [b IH] using (well_founded_induction Wf_nat.lt_wf). intros L NA.
  destruct (nth_error h b) as [n|] eqn:E; [|apply nth_error_None in E; lia]. pose proof (O b n E) as C.
  assert (CH : forall x, In x (children n) -> exists t, stands h x t) by (intros x I; destruct (C x I) as [L' N']; apply IH; [exact L'|lia|exact N']).
  assert (ARGS : forall args, (forall x, In x (arg_builders args) -> exists t, stands h x t) -> exists xs, stand_args h args xs).
  { induction args as [|[x|s] args IHa]; intros H; [exists []; constructor| |].
    - destruct IHa as (xs & X); [intros y Y; apply H; right; exact Y|]. destruct (H x) as (t & T); [left; reflexivity|]. exists (BArgExpr t :: xs). constructor; assumption.
    - destruct IHa as (xs & X); [exact H|]. exists (BArgEnum s :: xs). constructor; assumption. }
  assert (ALL : forall l, (forall x, In x l -> exists t, stands h x t) -> exists xs, stand_all h l xs).
  { induction l as [|x l IHl]; intros H; [exists []; constructor|]. destruct IHl as (xs & X); [intros y Y; apply H; right; exact Y|].
    destruct (H x) as (t & T); [left; reflexivity|]. exists (t :: xs). constructor; assumption. }
  destruct n; cbn [children] in CH.
  - eexists. eapply St_wrap; eauto.
  - eexists. eapply St_ref; eauto.
  - eexists. eapply St_lamref; eauto.
  - destruct (CH b0) as (x & X); [left; reflexivity|]. eexists. eapply St_cast; eauto.
  - eexists. eapply St_param; eauto.
  - destruct (ARGS args CH) as (xs & X). eexists. eapply St_scalar; eauto.
  - destruct (ARGS args) as (xs & X); [intros x I; apply CH, in_or_app; auto|]. destruct (ALL parts) as (ys & Y); [intros x I; apply CH, in_or_app; auto|].
    eexists. eapply St_window; eauto.
  - exfalso. apply NA. unfold is_agg. eauto 10.
  - destruct body as [x|]; [|eexists; eapply St_bare; eauto]. destruct (CH x) as (t & T); [left; reflexivity|]. eexists. eapply St_lambda; eauto.
Qed.
Lemma is_agg_step : forall (h : heap R) k x, is_agg h x -> is_agg (fstep h k) x.
Proof.
  intros h k x (id & opts & args & ph & inv & sorts & E). unfold is_agg. rewrite (fstep_nth k h x _ E).
  destruct k; cbn [touch]; try match goal with |- context [Nat.eqb ?y x] => destruct (Nat.eqb y x) end; cbn; do 6 eexists; reflexivity.
Qed.
Lemma is_agg_run : forall l (h : heap R) x, is_agg h x -> is_agg (fold_left fstep l h) x.
Proof. induction l as [|k l IH]; intros h x H; cbn; [exact H|]. apply IH, is_agg_step, H. Qed.

(** If every builder is given only builders of expressions that were made before it, every builder of an expression describes one, so building it returns. *)
Theorem C79_returns : forall l, (forall before k after, l = (before ++ k :: after)%list -> gives_earlier (is_agg (frun l)) (List.length (frun before)) k) ->
  forall b, (b < List.length (frun l))%nat -> ~ is_agg (frun l) b ->
  exists t, stands (frun l) b t /\ forall s, exists n, hb n (frun l) b s = Some (bd t s).
Proof.
  intros l G b L NA. assert (X : exists t, stands (frun l) b t).
  2:{ destruct X as (t & X). exists t. split; [exact X|]. intros s. apply (C79_build _ _ _ s X). reflexivity. }
  apply ordered_stands; [|exact L|exact NA]. clear b L NA. generalize (is_agg (frun l)) G. clear G. intros agg.
  induction l as [|k l IH] using rev_ind; intros G b n; [destruct b; discriminate|].
  assert (G' : forall before k0 after, l = (before ++ k0 :: after)%list -> gives_earlier agg (List.length (frun before)) k0).
  { intros before k0 after ->. apply (G before k0 (after ++ [k])%list). rewrite <- app_assoc. reflexivity. }
  specialize (IH G'). pose proof (G l k [] eq_refl) as GK. unfold frun in *. rewrite fold_left_app. cbn [fold_left]. set (h := fold_left fstep l []) in *.
  destruct (nth_error h b) as [n0|] eqn:E0.
  - rewrite (fstep_nth k h b n0 E0). intros [= <-] x. pose proof (IH b n0 E0 x) as OLD.
    destruct k; cbn [touch]; try match goal with |- context [Nat.eqb ?y b] => destruct (Nat.eqb_spec y b) as [->|?] end; auto.
    all: destruct n0; cbn [set_fail set_args set_phase set_invocation set_sort set_partitions set_bounds set_bounds_type children] in *; auto.
    + intros I. apply in_app_or in I. destruct I as [I|I]; [apply GK, I|apply OLD, in_or_app; auto].
    + intros I. apply in_app_or in I. destruct I as [I|I]; [apply OLD, in_or_app; auto|apply GK, I].
  - destruct (made k) as [m|] eqn:M.
    + rewrite (fstep_made k h m M). assert (LB : (List.length h <= b)%nat) by (apply nth_error_None; exact E0).
      rewrite nth_error_app2 by exact LB. destruct (b - List.length h)%nat as [|d] eqn:D; [|destruct d; discriminate]. intros [= <-].
      assert (b = List.length h) by lia. subst b. destruct k; try discriminate M; injection M as <-; cbn [children arg_builders flat_map app]; try (intros x []; fail).
      * exact GK.
      * destruct body; [exact GK|intros x []].
    + intros E. exfalso. apply nth_error_None in E0. assert (List.length (fstep h k) = List.length h) by (destruct k; try discriminate M; apply change_length).
      assert (b < List.length (fstep h k))%nat by (apply nth_error_Some; congruence). lia.
Qed.
End Building.

(** ** findings *)

(** A builder can be made an argument of itself; building it then never returns. *)
Theorem C79_self_refuted : forall (R : Type) (rel_schema : R -> res (list xtype)) short resolve c base id opts, exists h : heap R,
  h = frun [MkScalar id opts; SetArgs 0 [NBuilder 0]] /\ (0 < List.length h)%nat /\
  forall n s, hbuild rel_schema short resolve c base n h 0 s = None.
Proof.
  intros R rel_schema short resolve c base id opts. eexists. split; [reflexivity|]. split; [cbn; lia|].
  induction n as [|n IH]; intros s; [reflexivity|]. cbn [hbuild frun fold_left fstep change app set_args nth_error mapO hbuild_arg]. cbn in IH. rewrite IH. reflexivity.
Qed.
(** A builder given as an argument is not described as it was when given: what is done to it later changes what the outer builder describes. *)
Theorem C79_shared_refuted : forall (R : Type) (e1 e2 : expr R) f g opts, e1 <> e2 -> exists given : list (fcall R), exists later x x',
  given = [MkWrap e1 false; MkWrap e2 false; MkScalar f opts; SetArgs 2 [NBuilder 0]; MkScalar g opts; SetArgs 3 [NBuilder 2]] /\
  later = SetArgs 2 [NBuilder 1] /\
  stands (frun given) 3 x /\ stands (frun (given ++ [later])) 3 x' /\ x <> x'.
Proof.
  intros R e1 e2 f g opts N. eexists _, _, (BScalar g opts [BArgExpr (BScalar f opts [BArgExpr (BWrap e1 false)])]), (BScalar g opts [BArgExpr (BScalar f opts [BArgExpr (BWrap e2 false)])]).
  split; [reflexivity|]. split; [reflexivity|]. split; [|split; [|congruence]].
  - eapply St_scalar; [reflexivity|]. constructor; [|constructor]. eapply St_scalar; [reflexivity|]. constructor; [|constructor]. apply St_wrap. reflexivity.
  - eapply St_scalar; [reflexivity|]. constructor; [|constructor]. eapply St_scalar; [reflexivity|]. constructor; [|constructor]. apply St_wrap. reflexivity.
Qed.
(** If building the body of a lambda panics (here: a cast of a nil builder), and the panic is recovered from, the parameters stay in scope: a reference to a
    parameter outside of any lambda is then built, which it is not otherwise. *)
Theorem C79_scope_after_panic_refuted : forall (R : Type) (rel_schema : R -> res (list xtype)) short resolve c base t s, exists (h : heap R) r s',
  h = frun [MkLambda (Some (2, 0, [Some t])) (Some 1%nat); MkCast 9%nat t; MkLamRef 0 [] 0] /\
  hbuild rel_schema short resolve c base 3 h 2 (BState [] s) = Some (Err, BState [] s) /\
  hbuild rel_schema short resolve c base 3 h 0 (BState [] s) = Some (Panic, s') /\
  hbuild rel_schema short resolve c base 3 h 2 s' = Some (Ok r, s').
Proof. intros. eexists _, _, _. split; [reflexivity|]. split; [reflexivity|]. split; reflexivity. Qed.

(** ** examples *)

Definition sum_calls : list (fcall unit) :=
  [MkWrap (ExprModel.ELit ExprProps.five) false; MkScalar ExprProps.add_id []; SetArgs 1 [NBuilder 0]; MkCast 1 ExprProps.i32;
   SetArgs 1 [NBuilder 0; NBuilder 0]; SetFail 2 1; MkAgg ExprProps.add_id []; SetArgs 3 [NBuilder 2; NEnum "x"]; SetPhase 3 1; SetPhase 3 3].
Example C79_nonvacuous :
  nth_error (frun sum_calls) 1 = Some (NScalar ExprProps.add_id [] [NBuilder 0; NBuilder 0]) /\
  nth_error (frun sum_calls) 3 = Some (NAgg ExprProps.add_id [] [NBuilder 2; NEnum "x"] 3 0 []) /\
  (forall before k after, sum_calls = (before ++ k :: after)%list -> gives_earlier (is_agg (frun sum_calls)) (List.length (frun before)) k) /\
  (exists e s, hbuild (fun _ : unit => Err) (fun _ => EmptyString) (fun v ts s => Ok (ExprProps.i32, s)) ExprProps.one_func None 3 (frun sum_calls) 2 (BState [] new_set) = Some (Ok (ECast ExprProps.i32 e 1), s)).
Proof.
  split; [reflexivity|]. split; [reflexivity|]. split; [|eexists _, _; vm_compute; reflexivity].
  intros before k after E. unfold sum_calls in E.
  do 10 (destruct before as [|? before]; [injection E as <- _; cbn; try exact I; intros x X; cbn in X; intuition (subst; try lia; match goal with H : is_agg _ _ |- _ => destruct H as (? & ? & ? & ? & ? & ? & H); discriminate H end)|injection E as <- E]).
  destruct before; discriminate E.
Qed.

Print Assumptions C79_latest_unique.
Print Assumptions C79_scalar.
Print Assumptions C79_window.
Print Assumptions C79_aggregate.
Print Assumptions C79_cast.
Print Assumptions C79_fixed.
Print Assumptions C79_numbers.
Print Assumptions C79_build.
Print Assumptions C79_nil_builder.
Print Assumptions C79_stands_unique.
Print Assumptions C79_build_aggregate.
Print Assumptions C79_returns.
Print Assumptions C79_self_refuted.
Print Assumptions C79_shared_refuted.
Print Assumptions C79_scope_after_panic_refuted.
Print Assumptions C79_nonvacuous.
