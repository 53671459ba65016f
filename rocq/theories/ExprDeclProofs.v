(** Proofs for C18: every function call of a decoded expression names a declared function. *)

From Coq Require Import List ZArith String Ascii Bool Lia.
From Verif Require Import Base FMap FMapFacts TypesModel TypesSpec TypesProofs ExtSetModel ExtSetProofs
  LoadModel LoadSpec LoadProofs LitModel LitSpec LitProofs ExprModel ExprSpec ExprProofs ExprWireProofs.
Import ListNotations.
Local Open Scope Z_scope.

(** ** the functions of a decoded expression are declared *)

Definition good {T} (g : eset -> res (T * eset)) (K : eset -> T -> Prop) : Prop :=
  forall s y s', g s = Ok (y, s') -> extends s s' /\ (compact s -> fm_len (s_funcs s') < 2 ^ 32 -> compact s' /\ keeps s s' /\ K s' y).

Lemma keeps_refl : forall s, keeps s s. Proof. intros s a id H; auto. Qed.
Lemma keeps_trans : forall a b c, keeps a b -> keeps b c -> keeps a c. Proof. unfold keeps; auto. Qed.
Lemma names_keeps : forall get s s' n v, keeps s s' -> names get s n v -> names get s' n v.
Proof. intros get s s' n v H (id & D & G). exists id. auto. Qed.

Lemma func_anchor_compact : forall id s s' a, get_func_anchor id s = Ok (s', a) -> compact s ->
  fm_len (s_funcs s') < 2 ^ 32 -> compact s' /\ keeps s s' /\ decode_func a s' = Some id.
Proof.
  intros id s s' a H [C1 C2] HL. unfold get_func_anchor in H.
  destruct (fm_get ext_id_eqb id (s_funcs s)) as [b|] eqn:E.
  - inversion H; subst. split; [split; auto|]. split; [apply keeps_refl|]. apply C1; auto.
  - destruct (add_or_get_urn (id_urn id) (s_urns s)) as [[u k]| |]; try discriminate.
    assert (L0 : 0 <= fm_len (s_funcs s)) by (unfold fm_len; lia).
    assert (HW : fm_len (s_funcs s') = fm_len (s_funcs s) + 1).
    { inversion H; subst. unfold encode_func, with_urns. cbn [s_funcs]. rewrite len_set_fresh; auto. }
    assert (HA : uwrap 32 (uwrap 32 (fm_len (s_funcs s)) + 1) = fm_len (s_funcs s) + 1).
    { rewrite (uwrap_small (fm_len (s_funcs s))) by lia. apply uwrap_small. lia. }
    rewrite HA in H. set (n := fm_len (s_funcs s)) in *.
    assert (HN : decode_func (n + 1) s = None).
    { destruct (decode_func (n + 1) s) eqn:D; auto. apply C2 in D. lia. }
    inversion H; subst s' a. clear H. unfold decode_func, encode_func, with_urns, compact, keeps, decode_func in *.
    cbn [s_funcs s_func_map] in *.
    assert (G1 : forall x, fm_get Z.eqb x (fm_set Z.eqb (n + 1) id (s_func_map s)) =
              if x =? n + 1 then Some id else fm_get Z.eqb x (s_func_map s)).
    { intros x. destruct (Z.eqb_spec x (n + 1)) as [->|Hx].
      - apply get_set_same. apply Z.eqb_eq.
      - apply get_set_other; auto. apply Z.eqb_eq. }
    assert (G2 : forall x, fm_get ext_id_eqb x (fm_set ext_id_eqb id (n + 1) (s_funcs s)) =
              if ext_id_eqb x id then Some (n + 1) else fm_get ext_id_eqb x (s_funcs s)).
    { intros x. destruct (ext_id_eqb x id) eqn:Ex.
      - apply ext_id_eqb_spec in Ex. subst. apply get_set_same. apply ext_id_eqb_spec.
      - apply get_set_other; [apply ext_id_eqb_spec|]. intros ->. rewrite (proj2 (ext_id_eqb_spec id id) eq_refl) in Ex. discriminate. }
    split; [split|split].
    + intros a x. rewrite G1, G2. destruct (Z.eqb_spec a (n + 1)) as [->|Ha].
      * destruct (ext_id_eqb x id) eqn:Ex.
        -- apply ext_id_eqb_spec in Ex. subst. split; auto.
        -- split; intros HH.
           ++ inversion HH; subst. rewrite (proj2 (ext_id_eqb_spec x x) eq_refl) in Ex. discriminate.
           ++ apply C1 in HH. congruence.
      * destruct (ext_id_eqb x id) eqn:Ex.
        -- apply ext_id_eqb_spec in Ex. subst. split; intros HH; [|congruence]. apply C1 in HH. congruence.
        -- apply C1.
    + intros a x. rewrite G1. rewrite HW. destruct (Z.eqb_spec a (n + 1)) as [->|Ha]; intros HH; [lia|].
      apply C2 in HH. lia.
    + intros a x HH. rewrite G1. destruct (Z.eqb_spec a (n + 1)) as [->|Ha]; [congruence|auto].
    + rewrite G1, Z.eqb_refl. reflexivity.
Qed.

Lemma resolve_good : forall lookup get canon d w c ref, looks_up lookup get ->
  forall s r v b s', resolve_func lookup canon d w c ref s = Ok (r, v, b, s') ->
  extends s s' /\ (compact s -> fm_len (s_funcs s') < 2 ^ 32 -> compact s' /\ keeps s s' /\ names (get c) s' r v).
Proof.
  intros lookup get canon d w c ref L s r v b s' E.
  split; [eapply resolve_extends; eauto|]. intros C HL.
  unfold resolve_func in E. rewrite (L ref s c) in E. destruct (decode_func ref s) as [id|] eqn:D; [|discriminate].
  destruct (get c id) as [v'|] eqn:G.
  - inversion E; subst. split; auto. split; [apply keeps_refl|]. exists id. auto.
  - unb E. unb E. inversion E; subst. destruct (func_anchor_compact _ _ _ _ E1 C HL) as (C' & K & D').
    split; auto. split; auto. exists (variant_id v). split; auto.
Qed.

Lemma good_ret : forall T (x : T) (K : eset -> T -> Prop), (forall s, K s x) -> good (fun s => Ok (x, s)) K.
Proof.
  intros T x K H s y s' E. inversion E; subst. split; [apply extends_refl|]. intros C _. split; auto. split; auto. apply keeps_refl.
Qed.

Lemma mapS_good : forall A T (g : A -> eset -> res (T * eset)) (K : eset -> T -> Prop) l,
  (forall s s' x, keeps s s' -> K s x -> K s' x) ->
  Forall (fun m => good (g m) K) l -> good (mapS g l) (fun s ys => Forall (K s) ys).
Proof.
  intros A T g K l HK H. induction H as [|m l Hm Hl IH]; intros s y s' E; cbn [mapS] in E.
  - inversion E; subst. split; [apply extends_refl|]. intros C _. split; auto. split; [apply keeps_refl|constructor].
  - destruct (g m s) as [[y1 s1]| |] eqn:E1; try discriminate. fold (mapS g) in E.
    destruct (mapS g l s1) as [[y2 s2]| |] eqn:E2; inversion E; subst.
    destruct (Hm _ _ _ E1) as [X1 H1]. destruct (IH _ _ _ E2) as [X2 H2].
    split; [eapply extends_trans; eauto|]. intros C HL.
    assert (HL1 : fm_len (s_funcs s1) < 2 ^ 32) by (destruct X2 as [->|]; lia).
    destruct (H1 C HL1) as (C1 & K1 & P1). destruct (H2 C1 HL) as (C2 & K2 & P2).
    split; auto. split; [eapply keeps_trans; eauto|]. constructor; auto. eapply HK; eauto.
Qed.

Lemma pairS_good : forall A B T U (f : A -> eset -> res (T * eset)) (g : B -> eset -> res (U * eset))
  (K : eset -> T -> Prop) (K' : eset -> U -> Prop) p,
  (forall s s' x, keeps s s' -> K s x -> K s' x) ->
  good (f (fst p)) K -> good (g (snd p)) K' -> good (pairS f g p) (fun s q => K s (fst q) /\ K' s (snd q)).
Proof.
  intros A B T U f g K K' [a b] HK Hf Hg s y s' E. cbn [pairS fst snd] in *.
  destruct (f a s) as [[y1 s1]| |] eqn:E1; try discriminate.
  destruct (g b s1) as [[y2 s2]| |] eqn:E2; inversion E; subst.
  destruct (Hf _ _ _ E1) as [X1 H1]. destruct (Hg _ _ _ E2) as [X2 H2].
  split; [eapply extends_trans; eauto|]. intros C HL.
  assert (HL1 : fm_len (s_funcs s1) < 2 ^ 32) by (destruct X2 as [->|]; lia).
  destruct (H1 C HL1) as (C1 & K1 & P1). destruct (H2 C1 HL) as (C2 & K2 & P2).
  split; auto. split; [eapply keeps_trans; eauto|]. split; auto. cbn [fst]. eapply HK; eauto.
Qed.
Lemma liftS_good : forall A B (f : A -> res B) a, good (liftS f a) (fun _ _ => True).
Proof.
  intros A B f a s y s' E. unfold liftS in E. destruct (f a); inversion E; subst.
  split; [apply extends_refl|]. intros C _. split; auto. split; [apply keeps_refl|auto].
Qed.

Lemma every_call_impl : forall R (P Q P' Q' : Z -> variant -> Prop) (S S' : R -> Prop),
  (forall n v, P n v -> P' n v) -> (forall n v, Q n v -> Q' n v) -> (forall r, S r -> S' r) ->
  forall e : expr R, every_call P Q S e -> every_call P' Q' S' e.
Proof.
  intros R P Q P' Q' S S' HP HQ HS. apply (expr_ind' R (fun e => every_call P Q S e -> every_call P' Q' S' e)). intros e IH.
  assert (AL : forall l, Forall (fun e : expr R => every_call P Q S e -> every_call P' Q' S' e) l ->
            All (every_call P Q S) l -> All (every_call P' Q' S') l).
  { intros l H HA. rewrite All_Forall in *. induction H; inversion HA; subst; constructor; auto. }
  assert (AA : forall args, Forall (fun e : expr R => every_call P Q S e -> every_call P' Q' S' e) (flat_map farg_sub args) ->
     All (fun a => match a with AExpr e => every_call P Q S e | _ => True end) args ->
     All (fun a => match a with AExpr e => every_call P' Q' S' e | _ => True end) args).
  { intros l H HA. apply ch_args in H. rewrite All_Forall in *. induction H as [|a l Ha Hl IHl]; inversion HA; subst; constructor; auto.
    destruct a; auto. }
  assert (AP : forall l, Forall (fun e : expr R => every_call P Q S e -> every_call P' Q' S' e) (flat_map (fun p => [fst p; snd p]) l) ->
     All (fun p => match p with (a, b) => every_call P Q S a /\ every_call P Q S b end) l ->
     All (fun p => match p with (a, b) => every_call P' Q' S' a /\ every_call P' Q' S' b end) l).
  { intros l H HA. apply ch_pairs in H. rewrite All_Forall in *. induction H as [|[a b] l [Ha Hb] Hl IHl]; inversion HA; subst; constructor; auto.
    cbn [fst snd] in *. tauto. }
  assert (AS : forall B (l : list (B * expr R)), Forall (fun e => every_call P Q S e -> every_call P' Q' S' e) (map snd l) ->
     All (fun p => match p with (_, b) => every_call P Q S b end) l ->
     All (fun p => match p with (_, b) => every_call P' Q' S' b end) l).
  { intros B l H HA. apply ch_map in H. rewrite All_Forall in *. induction H as [|[a b] l Ha Hl IHl]; inversion HA; subst; constructor; auto. }
  assert (AF : forall B (l : list (expr R * B)), Forall (fun e => every_call P Q S e -> every_call P' Q' S' e) (map fst l) ->
     All (fun p => match p with (a, _) => every_call P Q S a end) l ->
     All (fun p => match p with (a, _) => every_call P' Q' S' a end) l).
  { intros B l H HA. apply ch_map in H. rewrite All_Forall in *. induction H as [|[a b] l Ha Hl IHl]; inversion HA; subst; constructor; auto. }
  destruct e; cbn [children every_call] in *; auto.
  - destruct r; auto. inversion IH; subst; auto.
  - intros [H1 H2]. split; auto.
  - apply Forall_app in IH. destruct IH as [IH1 IH]. apply Forall_app in IH. destruct IH as [IH2 IH3].
    intros (H1 & H2 & H3 & H4). split; auto.
  - apply Forall_app in IH. destruct IH as [IH1 IH2]. inversion IH2; subst. intros [H3 H4]. split; auto.
  - inversion IH as [|? ? Hm IH']; subst. apply Forall_app in IH'. destruct IH' as [IH1 IH2]. inversion IH2; subst.
    intros (H3 & H4 & H5). split; auto.
  - inversion IH; subst. intros [H3 H4]. split; auto.
  - apply Forall_app in IH. destruct IH as [IH1 IH2]. apply ch_concat in IH2. intros [H3 H4]. split; auto.
    rewrite All_Forall in *. induction IH2; inversion H4; subst; constructor; auto.
  - inversion IH; subst. auto.
  - inversion IH; subst. auto.
  - intros [H1 H2]. split; auto.
  - inversion IH; subst. intros [H3 H4]. split; auto.
Qed.

Section Declared.
Context {R PR : Type}.
Variable rel_schema : R -> res (list xtype).
Variable conv : option (PR -> eset -> res (R * eset)).
Variable canon : string -> option string.
Variable c : coll.
Variable base : option (list xtype).
Variable RK : eset -> R -> Prop.
Hypothesis RK_keeps : forall s s' r, keeps s s' -> RK s r -> RK s' r.
Definition conv_good_at (p : PR) : Prop := forall f, conv = Some f -> good (f p) RK.
Notation dec := (expr_from_proto rel_schema conv canon c base).
Definition calls_ok (s : eset) (e : expr R) : Prop := every_call (names (get_scalar c) s) (names (get_window c) s) (RK s) e.

Lemma calls_keep : forall s s' e, keeps s s' -> calls_ok s e -> calls_ok s' e.
Proof. intros s s' e HK. apply every_call_impl; [intros n v; apply names_keeps; auto..|]. intros r. apply RK_keeps; auto. Qed.

Definition arg_calls (s : eset) (a : farg (expr R)) : Prop := match a with AExpr e => calls_ok s e | _ => True end.
Lemma arg_calls_keep : forall s s' e, keeps s s' -> arg_calls s e -> arg_calls s' e.
Proof. intros s s' [| |e] HK; cbn; auto. apply calls_keep; auto. Qed.
Lemma farg_good : forall a, match a with PA_value e => good (dec e) calls_ok | _ => True end -> good (farg_from_proto dec a) arg_calls.
Proof.
  intros a H s y s' E. destruct a; cbn [farg_from_proto] in E.
  - discriminate.
  - exact (good_ret _ (AEnum s0) arg_calls (fun _ => I) _ _ _ E).
  - destruct (type_from_proto t) as [t'| |]; try discriminate. exact (good_ret _ (AType t') arg_calls (fun _ => I) _ _ _ E).
  - destruct (dec e s) as [[e' s1]| |] eqn:Ed; inversion E; subst. exact (H _ _ _ Ed).
Qed.
Lemma args_good : forall l, Forall (fun e => good (dec e) calls_ok) (flat_map pfarg_sub l) ->
  good (mapS (farg_from_proto dec) l) (fun s ys => Forall (arg_calls s) ys).
Proof.
  intros l H. apply mapS_good; [apply arg_calls_keep|]. apply pch_args in H.
  eapply Forall_impl; [|exact H]. intros a Ha. apply farg_good. exact Ha.
Qed.
Lemma list_good : forall l, Forall (fun e => good (dec e) calls_ok) l -> good (mapS dec l) (fun s ys => Forall (calls_ok s) ys).
Proof. intros l H. apply mapS_good; [apply calls_keep|auto]. Qed.
Lemma pairs_good : forall l, Forall (fun e => good (dec e) calls_ok) (flat_map (fun p => [fst p; snd p]) l) ->
  good (mapS (pairS dec dec) l) (fun s ys => Forall (fun q => calls_ok s (fst q) /\ calls_ok s (snd q)) ys).
Proof.
  intros l H. apply ch_pairs in H || apply pch_pairs in H. apply (mapS_good _ _ _ (fun s q => calls_ok s (fst q) /\ calls_ok s (snd q))).
  - intros s s' x K [H1 H2]. split; eapply calls_keep; eauto.
  - eapply Forall_impl; [|exact H]. intros p [H1 H2]. apply pairS_good; auto. apply calls_keep.
Qed.
Lemma cases_good : forall l : list (plit * pexpr PR), Forall (fun e => good (dec e) calls_ok) (map snd l) ->
  good (mapS (pairS (liftS lit_from_proto) dec) l) (fun s ys => Forall (fun q => True /\ calls_ok s (snd q)) ys).
Proof.
  intros l H. apply ch_map in H. apply (mapS_good _ _ _ (fun s q => True /\ calls_ok s (snd q))).
  - intros s s' x K [H1 H2]. split; auto. eapply calls_keep; eauto.
  - eapply Forall_impl; [|exact H]. intros p H1.
    apply (pairS_good _ _ _ _ (liftS lit_from_proto) dec (fun _ _ => True) calls_ok); auto. apply liftS_good.
Qed.
Lemma sorts_good : forall l : list (pexpr PR * psortkind), Forall (fun e => good (dec e) calls_ok) (map fst l) ->
  good (mapS (pairS dec (liftS sortkind_from_proto)) l) (fun s ys => Forall (fun q => calls_ok s (fst q) /\ True) ys).
Proof.
  intros l H. apply ch_map in H. apply (mapS_good _ _ _ (fun s q => calls_ok s (fst q) /\ True)).
  - intros s s' x K [H1 H2]. split; auto. eapply calls_keep; eauto.
  - eapply Forall_impl; [|exact H]. intros p H1.
    apply (pairS_good _ _ _ _ dec (liftS sortkind_from_proto) calls_ok (fun _ _ => True)); auto. apply calls_keep. apply liftS_good.
Qed.

(** walking along the reads of one node *)
Ltac use G :=
  let X := fresh "X" in let H := fresh "H" in
  match goal with E : _ = Ok _ |- _ =>
    first [destruct (G _ _ _ E) as [X H] | destruct (G _ _ _ _ _ E) as [X H]]; clear E end.
Ltac finish :=
  split; [eauto 8 using extends_trans, extends_refl|];
  intros C HL;
  repeat match goal with
  | X : extends ?a ?b |- _ =>
      assert (fm_len (s_funcs a) <= fm_len (s_funcs b)) by (destruct X as [->|]; lia); clear X
  end;
  repeat match goal with
  | C : compact ?s, H : compact ?s -> fm_len (s_funcs ?t) < _ -> _ |- _ =>
      let L := fresh "L" in
      assert (L : fm_len (s_funcs t) < 2 ^ 32) by lia;
      destruct (H C L) as (?C & ?K & ?P); clear H
  end;
  split; [assumption|]; split; [eauto 8 using keeps_trans, keeps_refl|].
Ltac keepk := eauto 8 using keeps_trans, keeps_refl.

Lemma Forall_keep : forall T (P Q : T -> Prop) l, (forall x, P x -> Q x) -> Forall P l -> Forall Q l.
Proof. intros T P Q l H. apply Forall_impl. auto. Qed.

Lemma dec_good_at : forall m, each_prel conv_good_at m -> good (dec m) calls_ok.
Proof.
  apply (pexpr_ind' PR (fun m => each_prel conv_good_at m -> good (dec m) calls_ok)). intros m IH' HE s y s' E.
  apply each_prel_down in HE as [conv_here HE].
  assert (IH : Forall (fun m => good (dec m) calls_ok) (pchildren m)).
  { clear conv_here. induction HE as [|x l Hx Hl IHl]; [constructor|]. inversion IH'; subst. constructor; auto. }
  clear IH' HE.
  destruct m; cbn [pchildren expr_from_proto own_prel] in *; try discriminate.
  - unb E. inversion E; subst. finish. exact I.
  - unb E. unb E. inversion E; subst. clear E E1.
    destruct r; cbn [root_from_proto] in E0.
    + inversion E0; subst. finish. exact I.
    + match type of E0 with context [dec ?x s] => destruct (dec x s) as [[e' s1]| |] eqn:Ed; inversion E0; subst end.
      inversion IH as [|? ? H1 ?]; subst. use H1. finish.
      unfold calls_ok. cbn [every_call]. destruct e'; cbn [nil_root]; auto. destruct l; auto; exact I.
    + inversion E0; subst. finish. exact I.
    + inversion E0; subst. finish. exact I.
    + inversion E0; subst. finish. exact I.
  - unb E. destruct out as [t|]; [|discriminate]. unb E. unb E. inversion E; subst.
    use (args_good args IH). use (resolve_good _ _ canon "" "" c fref looks_scalar). finish.
    unfold calls_ok. cbn [every_call]. split; auto. apply All_Forall.
    eapply Forall_keep; [|eassumption]. intros x Hx. refine (arg_calls_keep _ _ x _ Hx); keepk.
  - apply Forall_app in IH. destruct IH as [IH1 IH]. apply Forall_app in IH. destruct IH as [IH2 IH3].
    unb E. unb E. unb E. destruct out as [t|]; [|discriminate]. unb E. unb E. inversion E; subst.
    use (args_good args IH1). use (list_good parts IH2). use (sorts_good sorts IH3).
    use (resolve_good _ _ canon "NONE" "PARTITION" c fref looks_window). finish.
    unfold calls_ok. cbn [every_call]. rewrite !All_Forall. split; auto. split; [|split].
    + eapply Forall_keep; [|eassumption]. intros x Hx. refine (arg_calls_keep _ _ x _ Hx); keepk.
    + eapply Forall_keep; [|eassumption]. intros x Hx. refine (calls_keep _ _ x _ Hx); keepk.
    + eapply Forall_keep; [|eassumption]. intros [x k] [Hx _]. refine (calls_keep _ _ x _ Hx); keepk.
  - apply Forall_app in IH. destruct IH as [IH1 IH2]. inversion IH2; subst.
    unb E. unb E. inversion E; subst. use H1. use (pairs_good ifs IH1). finish.
    unfold calls_ok. cbn [every_call]. rewrite All_Forall. split.
    + eapply Forall_keep; [|eassumption]. intros [x z] Hx. exact Hx.
    + refine (calls_keep _ _ _ _ P); keepk.
  - inversion IH as [|? ? Hm IH']; subst. apply Forall_app in IH'. destruct IH' as [IH1 IH2]. inversion IH2; subst.
    unb E. unb E. unb E. inversion E; subst. use Hm. use H1. use (cases_good ifs IH1). finish.
    unfold calls_ok. cbn [every_call]. rewrite All_Forall. split; [|split].
    + refine (calls_keep _ _ _ _ P); keepk.
    + eapply Forall_keep; [|eassumption]. intros [x z] [_ Hx]. exact Hx.
    + refine (calls_keep _ _ _ _ P0); keepk.
  - inversion IH; subst. unb E. unb E. inversion E; subst. use H1. use (list_good opts H2). finish.
    unfold calls_ok. cbn [every_call]. rewrite All_Forall. split; auto.
    refine (calls_keep _ _ _ _ P); keepk.
  - apply Forall_app in IH. destruct IH as [IH1 IH2]. apply ch_concat in IH2.
    unb E. unb E. inversion E; subst.
    use (list_good v IH1).
    assert (HG : good (mapS (mapS dec) opts) (fun s ys => Forall (fun l => Forall (calls_ok s) l) ys)).
    { apply (mapS_good _ _ (mapS dec) (fun s l => Forall (calls_ok s) l)).
      - intros s1 s2 x K. apply Forall_keep. intros z. apply calls_keep. exact K.
      - eapply Forall_impl; [|exact IH2]. intros x Hx. apply list_good. exact Hx. }
    use HG.
    finish. unfold calls_ok. cbn [every_call]. rewrite !All_Forall. split.
    + eapply Forall_keep; [|exact P]. intros x Hx. refine (calls_keep _ _ x _ Hx); keepk.
    + eapply Forall_keep; [|exact P0]. intros x Hx. apply All_Forall. exact Hx.
  - destruct t as [t|]; [|discriminate]. inversion IH; subst. unb E. unb E. inversion E; subst. use H1. finish. exact P.
  - destruct kvs as [|p kvs]; [discriminate|]. unb E. inversion E; subst. use (pairs_good (p :: kvs) IH). finish.
    unfold calls_ok. cbn [every_call]. rewrite All_Forall.
    eapply Forall_keep; [|eassumption]. intros [x z] Hx. exact Hx.
  - unb E. inversion E; subst. use (list_good fields IH). finish.
    unfold calls_ok. cbn [every_call]. rewrite All_Forall. exact P.
  - destruct vals as [|p vals]; [discriminate|]. unb E. inversion E; subst. use (list_good (p :: vals) IH). finish.
    unfold calls_ok. cbn [every_call]. rewrite All_Forall. exact P.
  - destruct p as [[t ref]|]; [|discriminate]. unb E. inversion E; subst. finish. exact I.
  - destruct params as [[[ps var] n]|]; [|discriminate]. inversion IH as [|? ? H1 ?]; subst.
    destruct m; try discriminate E; (unb E; destruct (negb (n =? NullRequired)); [discriminate|]; unb E; inversion E; subst; use H1; finish; exact P).
  - destruct conv as [f|] eqn:EC; [|discriminate]. rewrite <- EC in *. unb E. injection E as <- <-. use (conv_here f EC). finish. exact P.
  - destruct conv as [f|] eqn:EC; [|discriminate]. rewrite <- EC in *. unb E. unb E. injection E as <- <-.
    use (list_good needles IH). use (conv_here f EC). finish.
    unfold calls_ok. cbn [every_call]. rewrite All_Forall. split; [|auto].
    eapply Forall_keep; [|eassumption]. intros x Hx. refine (calls_keep _ _ x _ Hx); keepk.
  - destruct conv as [f|] eqn:EC; [|discriminate]. rewrite <- EC in *. unb E. injection E as <- <-. use (conv_here f EC). finish. exact P.
  - destruct conv as [f|] eqn:EC; [|discriminate]. rewrite <- EC in *. unb E. unb E. injection E as <- <-. inversion IH as [|? ? H1 ?].
    use H1. use (conv_here f EC). finish.
    unfold calls_ok. cbn [every_call]. split; [|auto]. refine (calls_keep _ _ _ _ P); keepk.
Qed.

Definition agg_each (m : paggf PR) : Prop :=
  Forall (fun a => match a with PA_value e => each_prel conv_good_at e | _ => True end) (pa_args m) /\
  Forall (fun p => each_prel conv_good_at (fst p)) (pa_sorts m).
Lemma agg_good_at : forall m, agg_each m -> good (agg_from_proto rel_schema conv canon c base m) (fun s a =>
  Forall (arg_calls s) (ag_args a) /\ Forall (fun p => calls_ok s (fst p)) (ag_sorts a) /\
  match ag_decl a with
  | Some v => names (get_agg c) s (ag_ref a) v
  | None => exists v, names (get_agg c) s (ag_ref a) v
  end).
Proof.
  intros [ref args opts out ph inv sorts] HE s a s' E. unfold agg_from_proto in E. destruct HE as [HE1 HE2]. cbn [pa_args pa_sorts] in HE1, HE2.
  cbn [pa_ref pa_args pa_opts pa_out pa_phase pa_inv pa_sorts] in E. destruct out as [t|]; [|discriminate].
  unb E. unb E. unb E. unb E. inversion E; subst.
  assert (HA : good (mapS (farg_from_proto dec) args) (fun s ys => Forall (arg_calls s) ys)).
  { apply mapS_good; [apply arg_calls_keep|]. eapply Forall_impl; [|exact HE1]. intros x H. apply farg_good. destruct x; auto. apply dec_good_at; auto. }
  assert (HS := sorts_good sorts ltac:(apply Forall_map; eapply Forall_impl; [|exact HE2]; intros p; apply dec_good_at)).
  use HA. use HS. use (resolve_good _ _ canon "NONE" "" c ref looks_agg). finish.
  cbn [ag_args ag_sorts ag_decl ag_ref]. split; [|split].
  - eapply Forall_keep; [|eassumption]. intros x Hx. refine (arg_calls_keep _ _ x _ Hx); keepk.
  - eapply Forall_keep; [|eassumption]. intros [x k] [Hx _]. refine (calls_keep _ _ x _ Hx); keepk.
  - destruct b; eauto.
Qed.

Hypothesis conv_good : forall f p, conv = Some f -> good (f p) RK.
Lemma dec_good : forall m, good (dec m) calls_ok.
Proof. intros m. apply dec_good_at, each_prel_intro. intros p f. apply conv_good. Qed.
Lemma agg_good : forall m, good (agg_from_proto rel_schema conv canon c base m) (fun s a =>
  Forall (arg_calls s) (ag_args a) /\ Forall (fun p => calls_ok s (fst p)) (ag_sorts a) /\
  match ag_decl a with
  | Some v => names (get_agg c) s (ag_ref a) v
  | None => exists v, names (get_agg c) s (ag_ref a) v
  end).
Proof.
  intros m. apply agg_good_at. split; apply Forall_forall.
  - intros [] _; auto. apply each_prel_intro. intros p f. apply conv_good.
  - intros p _. apply each_prel_intro. intros q f. apply conv_good.
Qed.
End Declared.
