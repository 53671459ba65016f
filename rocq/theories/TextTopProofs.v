(** The tree of a whole printed type: it exists and there is no other reading. *)

From Coq Require Import ZArith String Ascii Bool Lia List.
From Verif Require Import Base TypesModel TimeModel SigModel TextModel TextSpec TextLexProofs TextNameProofs
  TextTokProofs TextTreeProofs TextTypeProofs.
From Verif Require SigEvalProofs DecimalProofs.
Import ListNotations.
Local Open Scope list_scope.

Lemma gram_spine : forall ss h, gram (GExpr 0) h -> Forall (sfx_ok 0) ss -> gram (GExpr 0) (fold_left add_sfx ss h).
Proof.
  induction ss as [|s ss IH]; intros h G F; [exact G|]. inversion F as [|? ? Hs Hss]; subst. cbn [fold_left]. apply IH; auto.
  destruct s as [op r|t e]; cbn [add_sfx gram sfx_ok] in *.
  - destruct Hs as (Hp & Hop & Hr). split; [eauto|auto].
  - destruct Hs as (Hp & Ht & He). split; [eauto|auto].
Qed.
Lemma yield_spine : forall ss h, yield (fold_left add_sfx ss h) = yield h ++ syield ss.
Proof.
  induction ss as [|s ss IH]; intros h; [cbn; rewrite app_nil_r; reflexivity|]. cbn [fold_left]. rewrite IH.
  destruct s; cbn [add_sfx yield syield flat_map sfx_yield]; rewrite <- ?app_assoc; cbn [app]; rewrite <- ?app_assoc; reflexivity.
Qed.

Lemma ftoks_no_nl : forall f, writable f -> ~ In TNl (ftoks f).
Proof.
  assert (forall A (g : A -> list tok) l, All (fun x => ~ In TNl (g x)) l -> ~ In TNl (sepby g l)) as HS.
  { intros A g. induction l as [|x l IH]; cbn [All sepby]; [auto|]. intros [Hx Hl] H. apply in_app_or in H as [H|H]; [auto|].
    destruct l; [destruct H|]. destruct H as [H|H]; [discriminate H|]. exact (IH Hl H). }
  assert (forall n, ~ In TNl (nq n)) as HQ.
  { intros n. unfold nq, qmark. destruct (Z.eqb n 1); cbn; intuition discriminate. }
  induction f as [p n v|b n v name l|k n v i|n v p s|name v n|n v e IHe|n v k x IHk IHx|n v fs IHfs
                 |n ps r0 IHps IHr|n v ps name IHps|l f IHf] using fdt_ind2;
    cbn [writable]; intros W; try tauto; cbn [ftoks]; intros H;
    repeat match goal with
    | H : In TNl (_ ++ _) |- _ => apply in_app_or in H as [H|H]
    | H : In TNl (_ :: _) |- _ => destruct H as [H|H]; [discriminate H|]
    | H : In TNl [] |- _ => destruct H
    | H : In TNl (nq ?n) |- _ => exact (HQ n H)
    end; try (destruct i; discriminate); try (destruct p; discriminate).
  - destruct H as [H|H]; [destruct i; discriminate H|]. destruct H as [H|H]; [discriminate H|destruct H].
  - destruct H as [H|H]; [destruct p; discriminate H|]. destruct H as [H|H]; [discriminate H|].
    destruct H as [H|H]; [destruct s; discriminate H|]. destruct H as [H|H]; [discriminate H|destruct H].
  - destruct H as [H|H]; [destruct (String.eqb name "any"); discriminate H|exact (HQ _ H)].
  - exact (IHe ltac:(tauto) H).
  - exact (IHk ltac:(tauto) H).
  - exact (IHx ltac:(tauto) H).
  - revert H. apply HS. eapply All_mp; [|exact IHfs]; tauto.
  - revert H. apply HS. eapply All_mp; [|exact IHps]; tauto.
  - exact (IHr ltac:(tauto) H).
  - destruct ps as [|p ps]; [destruct H|]. destruct H as [H|H]; [discriminate H|]. apply in_app_or in H as [H|[H|[]]]; [|discriminate H].
    revert H. apply HS. destruct W as (_ & _ & W). revert IHps W. generalize (p :: ps). clear.
    induction l as [|x l IH]; cbn [All]; [auto|]. intros [Ix Il] [Hx Hl]. split; [|auto].
    destruct x; cbn [uholds utoks] in *; [apply Ix; auto| |]; cbn; intuition discriminate.
Qed.

Lemma unique_plain : forall f t, writable f -> gram (GExpr 0) t -> yield t = ftoks f -> visit t = Ok (XType f).
Proof.
  intros f t W G Y. destruct (UT_of_TH f W (type_unique f W) t [] [] G) as [V _]; auto; try exact I.
  - apply (printed_calm (GExpr 0) t f 0); auto. rewrite Y. cbn. rewrite app_nil_r. reflexivity.
  - rewrite Y. reflexivity.
Qed.

(** The tree of a value of a definition, where a line end follows. *)
Lemma value_unique : forall d e R r', readable Alone d -> gram (GExpr 0) e -> yield e ++ TNl :: R = dtoks d ++ TNl :: r' ->
  visit e = Ok (XExpr d) /\ R = r'.
Proof.
  intros d e R r' H G E. destruct (expr_unique d) as (_ & _ & HU).
  destruct (HU H e _ _ G E) as [V ER]; try reflexivity.
  - apply proper_c; [reflexivity|discriminate].
  - right. split; reflexivity.
  - inversion ER. auto.
Qed.

(** "x = d" is not an equation when a line end follows. *)
Lemma not_equation : forall d e ss r', readable Alone d -> gram (GExpr 5) e -> Forall (sfx_ok 0) ss ->
  yield e ++ syield ss = dtoks d ++ TNl :: r' -> False.
Proof.
  intros d e ss r' H G Fs E.
  assert (forall p ss r', Forall (sfx_ok p) ss -> syield ss = TNl :: r' -> False) as NL.
  { intros p [|s ss0] r0 F0 E0; [discriminate E0|].
    destruct (sfx_starts _ _ _ F0 []) as (x & y & l & E1 & Hx & _). rewrite app_nil_r in E1. rewrite E0 in E1. inversion E1; subst x.
    destruct Hx as [Hx|[Hx _]]; discriminate Hx. }
  assert (forall d, readable Last d -> forall p e ss, gram (GExpr p) e -> Forall (sfx_ok 0) ss -> (2 <= p)%nat ->
    yield e ++ syield ss = dtoks d ++ TNl :: r' -> False) as HL.
  { clear -NL. intros d H p e ss G Fs Hp E. destruct (expr_unique d) as (_ & HL & _).
    destruct (UD_of_HD d p (HL H) e _ _ G E) as [_ ER]; try reflexivity.
    - destruct ss as [|s ss0]; [reflexivity|]. rewrite <- (app_nil_r (syield _)). eapply nf_rest; eauto. reflexivity.
    - apply proper_c; [reflexivity|discriminate].
    - left. lia.
    - eapply NL; eauto. }
  destruct d as [z|s|op l r|[] c t f|f|name args]; 
    try (eapply HL with (p := 5%nat); [|exact G|exact Fs|lia|exact E]; cbn [readable] in *; first [exact H | split; [discriminate|tauto]]).
  - (* a conditional *)
    cbn [readable] in H. destruct H as (_ & Hc & Ht & Hf). cbn [dtoks] in E. rewrite <- app_assoc in E. cbn [app] in E.
    rewrite <- app_assoc in E. cbn [app] in E.
    destruct (spine _ _ G) as (h & ss2 & -> & Hh & Gh & F2 & Y). assert (ss2 = []) as ->.
    { destruct ss2 as [|[op r|t2 e2] ss2]; [reflexivity| |]; inversion F2 as [|? ? Hs _]; subst; cbn [sfx_ok] in Hs; lia. }
    cbn [fold_left] in *. clear G F2 Y.
    destruct (expr_unique c) as (_ & HLc & _).
    destruct (dtoks_first t _ Ht) as (x & lx & Ex & Hx).
    destruct (HLc Hc h _ _ Gh Hh E) as [_ ER].
    + destruct ss as [|s ss0]; [reflexivity|]. rewrite <- (app_nil_r (syield _)). eapply nf_rest; eauto. reflexivity.
    + split; [reflexivity|]. intros t0 E0. inversion E0. subst t0. rewrite Ex. exact Hx.
    + right. reflexivity.
    + right. reflexivity.
    + destruct ss as [|[op e2|t2 e2] ss]; [discriminate ER| |].
      * cbn [syield flat_map sfx_yield app] in ER. inversion ER as [[E3 E4]]. subst op. inversion Fs as [|? ? Hs _]; subst. cbn [sfx_ok] in Hs.
        destruct Hs as (_ & Hs & _). cbn in Hs. repeat (destruct Hs as [Hs|Hs]; [discriminate Hs|]). exact Hs.
      * cbn [syield flat_map sfx_yield app] in ER. injection ER as ER. rewrite <- !app_assoc in ER. cbn [app] in ER.
        inversion Fs as [|? ? Hs Fss]; subst. cbn [sfx_ok] in Hs. destruct Hs as (_ & Gt & Ge).
        destruct (expr_unique t) as (_ & _ & HUt).
        destruct (HUt Ht t2 _ _ Gt ER) as [_ E5]; try reflexivity.
        { apply proper_c; [reflexivity|discriminate]. }
        { right. split; reflexivity. }
        injection E5 as E5. eapply (HL f Hf 2 e2 ss Ge Fss); [lia|exact E5].
Qed.

Lemma defs_unique : forall l g ss defs f n,
  Forall (fun a => identifier (fst a) /\ readable Alone (snd a)) l -> writable g ->
  All (fun d => match d : string * tree * nat with (_, e, m) => gram (GExpr 0) e /\ (1 <= m)%nat end) defs -> gram GType f ->
  Forall (sfx_ok 0) ss ->
  concat_map (fun d => match d : string * tree * nat with (x, e, m) => TId x :: TSym "=" :: yield e ++ repeat TNl m end) defs
    ++ yield f ++ repeat TNl n ++ syield ss =
  concat_map (fun a => TId (fst a) :: TSym "=" :: dtoks (snd a) ++ [TNl]) l ++ ftoks g ->
  Forall2 (fun d a => match d : string * tree * nat with (x, e, _) => visit e = Ok (XExpr (snd a)) /\ x = fst a end) defs l /\
  visit f = Ok (XType g) /\ ss = [].
Proof.
  induction l as [|[x d] l IH]; intros g ss defs f n Hl Wg Gd Gf Fs E.
  - cbn [concat_map app] in E. destruct defs as [|[[y e] m] defs].
    + cbn [concat_map app] in E. split; [constructor|].
      assert (n = 0%nat) as ->.
      { destruct n as [|n]; [reflexivity|exfalso]. apply (ftoks_no_nl g Wg). rewrite <- E. apply in_or_app. right. left. reflexivity. }
      cbn [repeat app] in E.
      assert (gram (GExpr 0) (fold_left add_sfx ss (PType f))) as GT by (apply gram_spine; auto; cbn; eauto).
      assert (calm (fold_left add_sfx ss (PType f))) as CT.
      { apply (printed_calm (GExpr 0) _ g 0); auto. rewrite yield_spine. cbn [yield]. rewrite E. cbn. rewrite app_nil_r. reflexivity. }
      destruct (calm_spine _ _ CT) as [Cf Cs].
      destruct (type_unique g Wg f (syield ss) [] Gf) as [V ER]; auto; try exact I.
      * rewrite E, app_nil_r. reflexivity.
      * rewrite <- (app_nil_r (syield ss)). eapply after_sfx; eauto. all: exact I.
      * split; [auto|]. apply (sfx_stop 0 ss [] [] Fs Cs); [rewrite app_nil_r; exact ER|exact I].
    + exfalso. destruct (ftoks_first g Wg) as (z & r & F & Tz). rewrite F in E. cbn [concat_map app] in E. inversion E; subst z. discriminate Tz.
  - inversion Hl as [|? ? [Hx Hd] Hl']; subst. cbn [fst snd] in *. destruct defs as [|[[y e] m] defs].
    + exfalso. destruct (type_first f Gf) as (z & r & Y & Tz). rewrite Y in E. cbn [concat_map app] in E. inversion E; subst z. discriminate Tz.
    + cbn [All] in Gd. destruct Gd as [[Ge Hm] Gd]. cbn [concat_map app fst snd] in E. injection E as E1 E.
      subst y. destruct m as [|m]; [lia|]. cbn [repeat] in E. rewrite <- !app_assoc in E. cbn [app] in E.
      destruct (value_unique d e _ _ Hd Ge E) as [V E2].
      assert (m = 0%nat) as ->.
      { destruct m as [|m]; [reflexivity|exfalso]. cbn [repeat app] in E2. destruct l as [|[x' d'] l].
        - cbn [concat_map app] in E2. destruct (ftoks_first g Wg) as (z & r & F & Tz). rewrite F in E2. inversion E2; subst z. discriminate Tz.
        - discriminate E2. }
      cbn [repeat app] in E2. destruct (IH g ss defs f n Hl' Wg Gd Gf Fs E2) as (HF & Vf & Es).
      split; [constructor; auto|auto].
Qed.

Lemma unique_tree : forall f t, written f -> gram (GExpr 0) t -> yield t = ftoks f -> visit t = Ok (XType f).
Proof.
  intros f t W G Y. destruct f as [| | | | | | | | | |l g]; try (apply unique_plain; auto; fail).
  destruct W as (Hne & Hl & Wg). destruct (spine _ _ G) as (h & ss & -> & Hh & Gh & Fs & Yh). rewrite Yh in Y. clear Yh G.
  cbn [ftoks] in Y. destruct l as [|[x d] l]; [congruence|].
  inversion Hl as [|? ? [Hx Hd] Hl']; subst. cbn [fst snd] in *.
  fh; try discriminate Y.
  - (* an equation *)
    exfalso. cbn [concat_map app yield fst snd] in Y. injection Y as E1 Y. destruct q; [discriminate Y|]. cbn [qmark app] in Y.
    destruct ss as [|[op e|t2 e] ss]; [discriminate Y| |discriminate Y]. cbn [syield flat_map sfx_yield app] in Y. injection Y as E2 Y.
    rewrite <- !app_assoc in Y. cbn [app] in Y. inversion Fs as [|? ? Hs Fss]; subst. cbn [sfx_ok] in Hs. destruct Hs as (_ & _ & Ge).
    eapply not_equation; eauto.
  - (* definitions *)
    cbn [yield] in Y. rewrite <- !app_assoc in Y.
    destruct (defs_unique ((x, d) :: l) g ss ((w, e1, m1) :: defs) f n1) as (HF & Vf & ->); auto.
    + cbn [All]. auto.
    + cbn [fold_left]. cbn [visit].
      match goal with |- bind (mapM ?F ?L) _ = _ => assert (mapM F L = Ok ((x, d) :: l)) as EM end.
      { revert HF. generalize ((w, e1, m1) :: defs), ((x, d) :: l). clear. intros defs l HF.
        induction HF as [|[[x e] m] [y d] defs l [V ->] HF IH]; [reflexivity|]. cbn [mapM fst snd] in *. rewrite V. cbn [bind as_expr].
        rewrite IH. reflexivity. }
      rewrite EM, Vf. reflexivity.
  - (* a type *)
    exfalso. cbn [concat_map app fst yield] in Y. destruct (type_first t1 Gt1) as (z & r & F & Tz). rewrite F in Y. inversion Y; subst z. discriminate Tz.
Qed.

(** ** existence *)

Fixpoint dtree (d : dexpr) : tree :=
  match d with
  | DNum z => PLit (string_of_Z z)
  | DName s => PName s false
  | DBin op l r => PParen (PBin (op_tok op) (dtree l) (dtree r))
  | DIf true c t e => PTern (dtree c) (dtree t) (dtree e)
  | DIf false c t e => PIf (dtree c) (dtree t) (dtree e)
  | DNot e => PNot (dtree e)
  | DCall name args => PCall name (map dtree args)
  end.

Lemma sepby_map : forall A B (g : B -> list tok) (h : A -> B) (k : A -> list tok) l,
  All (fun x => g (h x) = k x) l -> sepby g (map h l) = sepby k l.
Proof.
  intros A B g h k. induction l as [|x l IH]; cbn [All]; intros H; [reflexivity|]. destruct H as [Hx Hl].
  specialize (IH Hl). cbn [map sepby]. rewrite Hx. destruct l as [|y l]; [reflexivity|].
  change (map h (y :: l)) with (h y :: map h l) in *. cbv iota. rewrite <- IH. reflexivity.
Qed.

Lemma dtree_yield : forall d, yield (dtree d) = dtoks d.
Proof.
  induction d as [z|s|op l r0 IHl IHr|tern c t e IHc IHt IHe|e IHe|name args IHargs] using SigEvalProofs.dexpr_ind'; cbn [dtree yield dtoks].
  - reflexivity.
  - reflexivity.
  - rewrite IHl, IHr, <- app_assoc. reflexivity.
  - destruct tern; cbn [yield]; rewrite IHc, IHt, IHe; reflexivity.
  - rewrite IHe. reflexivity.
  - rewrite (sepby_map _ _ yield dtree dtoks); [reflexivity|].
    clear -IHargs. induction IHargs; cbn; auto.
Qed.

Lemma dtree_gram : forall d,
  (forall m, m <> Alone -> readable m d -> forall p, gram (GExpr p) (dtree d)) /\ (readable Alone d -> gram (GExpr 0) (dtree d)).
Proof.
  induction d as [z|s|op l r0 IHl IHr|tern c t e IHc IHt IHe|e IHe|name args IHargs] using SigEvalProofs.dexpr_ind'; cbn [dtree].
  - split; intros; cbn; eauto.
  - split; intros; cbn; eauto.
  - assert (op <> OpUnknown /\ readable Operand l /\ readable Operand r0 -> forall p, gram (GExpr p) (PParen (PBin (op_tok op) (dtree l) (dtree r0)))) as H.
    { intros (Hop & Hl & Hr) p. cbn [gram]. split; [eauto|]. split; [exists 0%nat; split; [reflexivity|lia]|].
      split; [apply op_tok_infix; auto|]. split; [apply (proj1 IHl Operand); auto; discriminate|apply (proj1 IHr Operand); auto; discriminate]. }
    cbn [readable]. split; auto.
  - destruct IHc as [Lc Ac], IHt as [Lt At], IHe as [Le Ae]. destruct tern; cbn [readable].
    + split; [intros m Hm [H _]; congruence|]. intros (_ & Hc & Ht & He). cbn [gram].
      split; [exists 0%nat; split; [reflexivity|lia]|]. split; [apply (Lc Last); auto; discriminate|]. split; [auto|]. apply (Le Last); auto; discriminate.
    + assert (readable Alone c /\ readable Alone t /\ readable Last e -> forall p, gram (GExpr p) (PIf (dtree c) (dtree t) (dtree e))) as H.
      { intros (Hc & Ht & He) p. cbn [gram]. split; [eauto|]. split; [auto|]. split; [auto|]. apply (Le Last); auto; discriminate. }
      split; [intros m Hm [_ H']; auto|intros [_ H']; auto].
  - destruct IHe as [Le Ae]. assert (readable Last e -> forall p, gram (GExpr p) (PNot (dtree e))) as H.
    { intros He p. cbn [gram]. split; [eauto|]. apply (Le Last); auto; discriminate. }
    cbn [readable]. split; [intros m Hm [_ H']; auto|intros [_ H']; auto].
  - assert (All (readable Alone) args -> forall p, gram (GExpr p) (PCall name (map dtree args))) as H.
    { intros H p. cbn [gram]. split; [eauto|]. clear -H IHargs. induction IHargs as [|d args [_ Hd] HF IH]; cbn in *; intuition auto. }
    cbn [readable]. split; [intros m Hm (_ & _ & H')|intros (_ & _ & H')]; apply H; auto.
Qed.

Definition itree (i : iparam) : tree := match i with IConc z => PNumLit (string_of_Z z) | IVar s => PNumName s end.

Fixpoint ftree (f : fdt) : tree :=
  match f with
  | FPrim p n _ => PScalar (prim_name p) (Z.eqb n 1)
  | FEnum _ _ _ _ _ => PAny false
  | FSingle k n _ i => PSingle (single_name k) (Z.eqb n 1) (itree i)
  | FDecimal n _ p s => PDecimal (Z.eqb n 1) (itree p) (itree s)
  | FAny name _ n => if String.eqb name "any" then PAny (Z.eqb n 1) else PAnyVar name (Z.eqb n 1)
  | FList n _ e => PList (Z.eqb n 1) (PType (ftree e))
  | FMap n _ k x => PMap (Z.eqb n 1) (PType (ftree k)) (PType (ftree x))
  | FStruct n _ fs => PStruct (Z.eqb n 1) (map (fun f => PType (ftree f)) fs)
  | FFunc n ps r => PFunc (Z.eqb n 1) (PParam (PType match ps with p :: _ => ftree p | [] => PAny false end)) (PType (ftree r))
  | FUser n _ ps name => PUser name (Z.eqb n 1) (map utree ps)
  | FDeriv _ g => ftree g
  end
with utree (p : udtp) : tree :=
  match p with
  | UData f => PType (ftree f)
  | UInt z => PLit (string_of_Z z)
  | UStr s => PName s false
  end.

Lemma itree_yield : forall i, yield (itree i) = [itok i].
Proof. destruct i; reflexivity. Qed.
Lemma itree_gram : forall i, gram GNumeric (itree i).
Proof. destruct i; reflexivity. Qed.

Lemma ftree_ok : forall f, writable f -> gram GType (ftree f) /\ yield (ftree f) = ftoks f.
Proof.
  induction f as [p n v|b n v name l|k n v i|n v p s|name v n|n v e IHe|n v k x IHk IHx|n v fs IHfs
                 |n ps r0 IHps IHr|n v ps name IHps|l f IHf] using fdt_ind2;
    cbn [writable]; intros W; try tauto; cbn [ftree ftoks].
  - split; [|reflexivity]. cbn [gram]. split; [reflexivity|]. destruct p; cbn; tauto.
  - cbn [gram yield]. rewrite itree_yield. split; [|reflexivity]. split; [reflexivity|]. split; [destruct k as [[]| | | |]; cbn; tauto|apply itree_gram].
  - cbn [gram yield]. rewrite !itree_yield. split; [|reflexivity]. auto using itree_gram.
  - destruct (String.eqb name "any"); split; reflexivity.
  - destruct W as [_ W]. destruct (IHe W) as [G Y]. cbn [gram yield]. rewrite Y. split; [split; eauto|reflexivity].
  - destruct W as (_ & Wk & Wx). destruct (IHk Wk) as [Gk Yk], (IHx Wx) as [Gx Yx]. cbn [gram yield]. rewrite Yk, Yx.
    split; [split; [auto|split; eauto]|reflexivity].
  - destruct W as (_ & Hne & W). cbn [gram yield]. split.
    + split; [auto|]. split; [destruct fs; [congruence|discriminate]|].
      clear -IHfs W. induction fs as [|f fs IH]; cbn [map All gram] in *; [auto|]. destruct IHfs as [If Ifs], W as [Wf Ws].
      destruct (If Wf). split; [split; eauto|auto].
    + rewrite (sepby_map _ _ yield _ ftoks); [reflexivity|].
      clear -IHfs W. induction fs as [|f fs IH]; cbn [map All yield] in *; [auto|]. destruct IHfs as [If Ifs], W as [Wf Ws].
      destruct (If Wf). auto.
  - destruct W as (_ & Hl & Wp & Wr). destruct ps as [|p [|q ps]]; try discriminate Hl. cbn [All] in *.
    destruct IHps as [IHp _], Wp as [Wp _]. destruct (IHp Wp) as [Gp Yp], (IHr Wr) as [Gr Yr]. cbn [gram yield sepby]. rewrite Yp, Yr, app_nil_r.
    split; [split; [auto|split; [split; eauto|split; eauto]]|reflexivity].
  - destruct W as (_ & _ & W). cbn [gram yield]. split.
    + split; [auto|]. clear -IHps W. induction ps as [|p ps IH]; cbn [map All] in *; [auto|]. destruct IHps as [Ip Ips], W as [Wp Ws].
      split; [|auto]. destruct p; cbn [utree gram uholds] in *; eauto. split; [eauto|]. apply Ip; auto.
    + destruct ps as [|p ps]; [reflexivity|]. rewrite (sepby_map _ _ yield utree utoks); [reflexivity|].
      revert IHps W. generalize (p :: ps). clear. induction l as [|p ps IH]; cbn [map All] in *; [auto|].
      intros [Ip Ips] [Wp Ws]. split; [|auto]. destruct p; cbn [utree yield utoks uholds] in *; try reflexivity. apply Ip; auto.
Qed.

Lemma has_tree : forall f, written f -> exists t, gram (GExpr 0) t /\ yield t = ftoks f.
Proof.
  intros f W. assert (forall f, writable f -> exists t, gram (GExpr 0) t /\ yield t = ftoks f) as HW.
  { clear. intros f W. destruct (ftree_ok f W) as [G Y]. exists (PType (ftree f)). split; [cbn; eauto|exact Y]. }
  destruct f as [| | | | | | | | | |l g]; try (apply HW; exact W). destruct W as (Hne & Hl & Wg).
  destruct (ftree_ok g Wg) as [G Y].
  exists (PMulti (map (fun a => (fst a, dtree (snd a), 1%nat)) l) (ftree g) 0). cbn [gram yield ftoks]. split.
  - split; [eauto|]. split; [destruct l; [congruence|discriminate]|]. split; [|auto].
    clear -Hl. induction Hl as [|a l [_ Ha] Hl IH]; cbn [map All]; [auto|]. split; [|auto]. split; [apply dtree_gram; auto|lia].
  - cbn [repeat]. rewrite app_nil_r, Y. f_equal. clear. induction l as [|a l IH]; cbn [map concat_map]; [reflexivity|].
    rewrite IH, dtree_yield. reflexivity.
Qed.
