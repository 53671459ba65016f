(** Unique readability: the only tree of a printed type visits to that type. *)

From Coq Require Import ZArith String Ascii Bool Lia List.
From Verif Require Import Base TypesModel TimeModel SigModel TextModel TextSpec TextLexProofs TextNameProofs TextTokProofs.
From Verif Require SigEvalProofs.
Import ListNotations.
Local Open Scope list_scope.

(** ** first tokens *)

Definition first_tok (x : tok) : bool :=
  match x with
  | TKw k => negb (String.eqb k "and" || String.eqb k "or" || String.eqb k "then" || String.eqb k "else")
  | TAnyVar _ | TNum _ | TId _ => true
  | TSym s => String.eqb s "(" || String.eqb s "!"
  | TNl => false
  end.
Definition starts (p : tok -> bool) (l : list tok) : bool :=
  match l with x :: _ => p x | [] => false end.
Definition tok_is (s : string) (x : tok) : bool :=
  match x with TSym s' => String.eqb s s' | _ => false end.
Definition infix (x : tok) : bool :=
  match x with
  | TSym s => existsb (String.eqb s) ["+"; "-"; "*"; "/"; "="; "!="; ">="; "<="; ">"; "<"]%string
  | TKw k => String.eqb k "and" || String.eqb k "or"
  | _ => false
  end.

Lemma infix_iff : forall x, In x infix_ops -> infix x = true.
Proof. intros x H. cbn in H. repeat (destruct H as [<-|H]; [reflexivity|]). destruct H. Qed.

Lemma starts_app : forall p l r, l <> [] -> starts p (l ++ r) = starts p l.
Proof. intros p [|x l] r H; [congruence|reflexivity]. Qed.

(** A type starts with a keyword other than "if", or an any variable. *)
Definition type_tok (x : tok) : bool :=
  match x with
  | TKw k => negb (String.eqb k "if" || (String.eqb k "and" || String.eqb k "or" || String.eqb k "then" || String.eqb k "else"))
  | TAnyVar _ => true
  | _ => false
  end.
Lemma type_first : forall t, gram GType t -> exists x l, yield t = x :: l /\ type_tok x = true.
Proof.
  intros t H. destruct t; cbn [gram] in H; try (destruct H as [H _]; discriminate H);
    try (destruct H as [(l & H) _]; discriminate H); try discriminate H; cbn [yield];
    try (eexists _, _; split; [reflexivity|reflexivity]);
    try (destruct H as (l & H); discriminate H).
  - destruct H as [_ H]. eexists _, _. split; [reflexivity|]. cbn in H.
    repeat (destruct H as [<-|H]; [reflexivity|]). destruct H.
  - destruct H as (_ & H & _). eexists _, _. split; [reflexivity|]. cbn in H.
    repeat (destruct H as [<-|H]; [reflexivity|]). destruct H.
  - destruct H as [(l & H & _) _]. discriminate H.
  - destruct H as [(l & H & _) _]. discriminate H.
Qed.
Lemma type_tok_first : forall x, type_tok x = true -> first_tok x = true.
Proof.
  destruct x; cbn [type_tok first_tok]; auto; try discriminate. rewrite !negb_true_iff, orb_false_iff. tauto.
Qed.

Lemma tree_first : forall t s, gram s t -> exists x l, yield t = x :: l /\ first_tok x = true.
Proof.
  induction t; intros s H; cbn [gram] in H; cbn [yield]; try (eexists _, _; split; [reflexivity|reflexivity]).
  - destruct H as [_ H]. eexists _, _. split; [reflexivity|]. cbn in H.
    repeat (destruct H as [<-|H]; [reflexivity|]). destruct H.
  - destruct H as (_ & H & _). eexists _, _. split; [reflexivity|]. cbn in H.
    repeat (destruct H as [<-|H]; [reflexivity|]). destruct H.
  - destruct H as (_ & H & _). eapply IHt; eauto.
  - destruct H as (_ & H). eapply IHt; eauto.
  - destruct H as (_ & Hne & _ & _). destruct defs as [|[[x e] m] defs]; [congruence|].
    cbn [concat_map app]. eexists _, _. split; reflexivity.
  - destruct H as (_ & H). eapply IHt; eauto.
  - destruct H as (_ & _ & H & _). destruct (IHt1 _ H) as (x & l & -> & Hx). cbn [app]. eexists _, _. split; [reflexivity|auto].
  - destruct H as (_ & H & _). destruct (IHt1 _ H) as (x & l & -> & Hx). cbn [app]. eexists _, _. split; [reflexivity|auto].
Qed.

(** ** heads and suffixes *)

Inductive sfx := SBin (op : tok) (r : tree) | STern (t e : tree).
Definition sfx_yield (s : sfx) : list tok :=
  match s with
  | SBin op r => op :: yield r
  | STern t e => TSym "?" :: yield t ++ TSym ":" :: yield e
  end.
Definition add_sfx (e : tree) (s : sfx) : tree :=
  match s with SBin op r => PBin op e r | STern t e' => PTern e t e' end.
Definition sfx_ok (p : nat) (s : sfx) : Prop :=
  match s with
  | SBin op r => (p <= 4)%nat /\ In op infix_ops /\ gram (GExpr 5) r
  | STern t e => (p <= 1)%nat /\ gram (GExpr 0) t /\ gram (GExpr 2) e
  end.
Definition is_head (t : tree) : Prop :=
  match t with PBin _ _ _ | PTern _ _ _ => False | _ => True end.
Definition syield (ss : list sfx) : list tok := flat_map sfx_yield ss.

Lemma head_level : forall h p q, is_head h -> gram (GExpr p) h -> gram (GExpr q) h.
Proof.
  intros h p q Hh H. destruct h; cbn [gram is_head] in *; try tauto; try (destruct H as [H ?]; discriminate H); try discriminate H;
    try (destruct H as [_ H]; split; [eauto|exact H]); eauto.
Qed.

Lemma spine : forall e p, gram (GExpr p) e -> exists h ss,
  e = fold_left add_sfx ss h /\ is_head h /\ gram (GExpr 0) h /\ Forall (sfx_ok p) ss /\
  yield e = yield h ++ syield ss.
Proof.
  assert (forall e p, is_head e -> gram (GExpr p) e -> exists h ss,
    e = fold_left add_sfx ss h /\ is_head h /\ gram (GExpr 0) h /\ Forall (sfx_ok p) ss /\
    yield e = yield h ++ syield ss) as Hd.
  { intros e p Hh H. exists e, []. cbn. rewrite app_nil_r. repeat split; eauto using head_level. }
  induction e; intros p0 H; try (apply Hd; [exact I|exact H]).
  - pose proof H as G. cbn [gram] in H. destruct H as ((n & En & Hn) & Hop & Hl & Hr). inversion En; subst n.
    destruct (IHe1 _ Hl) as (h & ss & E & Hh & Gh & Fs & Y).
    exists h, (ss ++ [SBin op e2]). rewrite fold_left_app. cbn [fold_left add_sfx]. rewrite <- E.
    repeat split; auto.
    + apply Forall_app. split; [auto|]. constructor; [|constructor]. cbn. auto.
    + cbn [yield]. rewrite Y. unfold syield. rewrite flat_map_app. cbn. rewrite app_nil_r, <- app_assoc. reflexivity.
  - cbn [gram] in H. destruct H as ((n & En & Hn) & Hc & Ht & He). inversion En; subst n.
    destruct (IHe1 _ Hc) as (h & ss & E & Hh & Gh & Fs & Y).
    exists h, (ss ++ [STern e2 e3]). rewrite fold_left_app. cbn [fold_left add_sfx]. rewrite <- E.
    repeat split; auto.
    + apply Forall_app. split; [auto|]. constructor; [|constructor]. cbn. auto.
    + cbn [yield]. rewrite Y. unfold syield. rewrite flat_map_app. cbn. rewrite app_nil_r, <- app_assoc. reflexivity.
Qed.

Lemma sfx_starts : forall p s ss, Forall (sfx_ok p) (s :: ss) -> forall r,
  exists x y l, syield (s :: ss) ++ r = x :: y :: l /\ (infix x = true \/ (x = TSym "?" /\ (p <= 1)%nat)) /\ first_tok y = true.
Proof.
  intros p s ss H r. inversion H as [|? ? Hs _]; subst. destruct s as [op e|t e]; cbn [sfx_ok] in Hs; cbn [syield flat_map sfx_yield].
  - destruct Hs as (Hp & Hop & He). destruct (tree_first _ _ He) as (x & l & -> & Hx).
    cbn [app]. eexists _, _, _. split; [reflexivity|]. split; [left; apply infix_iff; auto|auto].
  - destruct Hs as (Hp & Ht & He). destruct (tree_first _ _ Ht) as (x & l & -> & Hx).
    cbn [app]. eexists _, _, _. split; [reflexivity|]. split; [right; auto|auto].
Qed.

Lemma head_cases : forall h, gram (GExpr 0) h -> is_head h ->
  (exists w, h = PLit w) \/ (exists w q, h = PName w q) \/
  (exists w args, h = PCall w args /\ All (gram (GExpr 0)) args) \/
  (exists w e m defs f n, h = PMulti ((w, e, m) :: defs) f n /\ gram (GExpr 0) e /\ (1 <= m)%nat /\
     All (fun d => match d : string * tree * nat with (_, e, m) => gram (GExpr 0) e /\ (1 <= m)%nat end) defs /\ gram GType f) \/
  (exists e, h = PParen e /\ gram (GExpr 0) e) \/
  (exists e, h = PNot e /\ gram (GExpr 2) e) \/
  (exists c t e, h = PIf c t e /\ gram (GExpr 0) c /\ gram (GExpr 0) t /\ gram (GExpr 3) e) \/
  (exists t, h = PType t /\ gram GType t).
Proof.
  intros h H Hh. destruct h; cbn [gram is_head] in *; try tauto; try (destruct H as [H _]; discriminate H); try discriminate H.
  - destruct H as [_ H]. do 4 right. left. eauto.
  - destruct H as (_ & Hne & Hd & Hf). do 3 right. left. destruct defs as [|[[w e] m] defs]; [congruence|].
    cbn [All] in Hd. destruct Hd as [[He Hm] Hd]. eexists _, _, _, _, _, _. split; [reflexivity|]. auto.
  - destruct H as [_ H]. do 7 right. eauto.
  - left. eauto.
  - right. left. eauto.
  - destruct H as [_ H]. do 2 right. left. eauto.
  - destruct H as (_ & H). do 6 right. left. eexists _, _, _. split; [reflexivity|auto].
  - destruct H as [_ H]. do 5 right. left. eauto.
Qed.

(** ** lists *)

Lemma sepby_unique : forall A (toks : A -> list tok) (good : tree -> A -> Prop) (extra : tree -> Prop) (close : tok),
  first_tok close = false -> close <> TSym "," ->
  forall (l : list A),
  All (fun a => (exists x r, toks a = x :: r /\ first_tok x = true) /\
    forall e r r', gram (GExpr 0) e -> extra e -> yield e ++ r = toks a ++ r' ->
      (exists r0, r = TSym "," :: r0 \/ r = close :: r0) -> (exists r0, r' = TSym "," :: r0 \/ r' = close :: r0) ->
      good e a /\ r = r') l ->
  forall es R r', All (gram (GExpr 0)) es -> All extra es ->
  sepby yield es ++ close :: R = sepby toks l ++ close :: r' ->
  Forall2 good es l /\ R = r'.
Proof.
  intros A toks good extra close Hc Hcomma. induction l as [|a l IH]; intros Hl es R r' Ges Xes E.
  - destruct es as [|e es].
    + cbn in E. inversion E; subst. split; [constructor|auto].
    + exfalso. cbn [All] in Ges. destruct Ges as [Ge _]. destruct (tree_first _ _ Ge) as (x & y & Y & Hx).
      cbn [sepby] in E. rewrite Y in E. cbn [app] in E. inversion E. subst. congruence.
  - cbn [All] in Hl. destruct Hl as [[(x & y & Ta & Hx) Hu] Hl].
    destruct es as [|e es].
    + exfalso. cbn [sepby] in E. rewrite Ta in E. cbn [app] in E. inversion E. subst. congruence.
    + cbn [All] in Ges, Xes. destruct Ges as [Ge Ges], Xes as [Xe Xes].
      cbn [sepby] in E. rewrite <- !app_assoc in E.
      assert (forall B (f : B -> list tok) (m : list B) T, exists r0,
        (match m with [] => [] | _ :: _ => TSym "," :: sepby f m end) ++ close :: T = TSym "," :: r0 \/
        (match m with [] => [] | _ :: _ => TSym "," :: sepby f m end) ++ close :: T = close :: r0) as Hsep.
      { intros B f [|b m] T; cbn [app]; eauto. }
      destruct (Hu _ _ _ Ge Xe E (Hsep _ _ _ _) (Hsep _ _ _ _)) as [Hg E2].
      destruct es as [|e' es], l as [|a' l].
      * cbn in E2. inversion E2; subst. split; [constructor; [auto|constructor]|auto].
      * cbn [app] in E2. inversion E2. congruence.
      * cbn [app] in E2. inversion E2. congruence.
      * cbn [app] in E2. injection E2 as E2. destruct (IH Hl _ _ _ Ges Xes E2) as [Hf ->].
        split; [constructor; auto|auto].
Qed.

Lemma mapM_good : forall A (f : tree -> res A) es l, Forall2 (fun e a => f e = Ok a) es l -> mapM f es = Ok l.
Proof. intros A f es l H. induction H as [|e a es l He H IH]; cbn; [reflexivity|]. rewrite He, IH. reflexivity. Qed.

(** ** expressions *)

Definition nf (r : list tok) : Prop := starts first_tok r = false.
Definition proper (r : list tok) : Prop :=
  nf r /\ forall t, r = TSym "?" :: t -> starts first_tok t = true.
Definition is_multi (h : tree) : bool := match h with PMulti _ _ _ => true | _ => false end.

Definition HD (m : place) (d : dexpr) : Prop := forall h R r',
  gram (GExpr 0) h -> is_head h -> yield h ++ R = dtoks d ++ r' -> nf R -> proper r' ->
  (m = Operand \/ starts infix r' = false) ->
  (is_multi h = false \/ starts infix r' = false) ->
  visit h = Ok (XExpr d) /\ R = r'.

Definition UD (p : nat) (d : dexpr) : Prop := forall e r r',
  gram (GExpr p) e -> yield e ++ r = dtoks d ++ r' -> nf r -> proper r' -> starts infix r' = false ->
  ((2 <= p)%nat \/ (starts (tok_is "?") r = false /\ starts (tok_is "?") r' = false)) ->
  visit e = Ok (XExpr d) /\ r = r'.

Lemma infix_nf : forall x, infix x = true -> first_tok x = false.
Proof.
  intros [k|w|w|w|s|] H; try discriminate H; cbn [infix first_tok] in *.
  - apply orb_true_iff in H. destruct H as [H|H]; rewrite H; [reflexivity|]. rewrite orb_true_r. reflexivity.
  - apply existsb_exists in H as (x & Hx & E). apply String.eqb_eq in E. subst x.
    cbn in Hx. repeat (destruct Hx as [<-|Hx]; [reflexivity|]). destruct Hx.
Qed.

Lemma nf_rest : forall p ss r, Forall (sfx_ok p) ss -> nf r -> nf (syield ss ++ r).
Proof.
  intros p [|s ss] r H Hr; [exact Hr|]. destruct (sfx_starts _ _ _ H r) as (x & y & l & -> & Hx & _).
  unfold nf. cbn [starts]. destruct Hx as [Hx|[-> _]]; [|reflexivity]. apply infix_nf; auto.
Qed.

Lemma sfx_none : forall p ss r r', Forall (sfx_ok p) ss -> syield ss ++ r = r' -> starts infix r' = false ->
  ((2 <= p)%nat \/ starts (tok_is "?") r' = false) -> ss = [].
Proof.
  intros p [|s ss] r r' H E Hi Hq; [reflexivity|exfalso].
  destruct (sfx_starts _ _ _ H r) as (x & y & l & E' & Hx & _). rewrite E' in E. subst r'. cbn [starts] in *.
  destruct Hx as [Hx|[-> Hp]]; [congruence|]. destruct Hq as [Hq|Hq]; [lia|discriminate Hq].
Qed.

Lemma UD_of_HD : forall d p, HD Last d -> UD p d.
Proof.
  intros d p H e r r' Ge E Hr Hr' Hi Hq. destruct (spine _ _ Ge) as (h & ss & -> & Hh & Gh & Fs & Y).
  rewrite Y, <- app_assoc in E.
  destruct (H h (syield ss ++ r) r' Gh Hh E) as [V ER]; eauto using nf_rest.
  assert (ss = []) as -> by (eapply sfx_none; eauto; tauto). cbn in *. auto.
Qed.

Lemma multi_yield : forall w e m defs f n, exists X,
  yield (PMulti ((w, e, m) :: defs) f n) = TId w :: TSym "=" :: yield e ++ TNl :: X \/ m = 0%nat.
Proof.
  intros w e [|m] defs f n; [exists []; auto|]. eexists. left. cbn [yield concat_map repeat].
  cbn [app]. rewrite <- !app_assoc. cbn [app]. reflexivity.
Qed.

Ltac fh := (* take apart the cases of a head *)
  match goal with G : gram (GExpr 0) ?h, H : is_head ?h |- _ =>
    let C := fresh in pose proof (head_cases h G H) as C;
    destruct C as [(w & ->)|[(w & q & ->)|[(w & args' & -> & Ga)|[(w & e1 & m1 & defs & f & n1 & -> & Ge1 & Hm1 & Gd & Gf)
      |[(e1 & -> & Ge1)|[(e1 & -> & Ge1)|[(c1 & t1 & e1 & -> & Gc1 & Gt1 & Ge1)|(t1 & -> & Gt1)]]]]]]]
  end.
(* a type cannot start with these tokens *)
Ltac nt E := cbn [yield app] in E;
  match type of E with context[yield ?t ++ _] =>
    match goal with G : gram GType t |- _ =>
      let x := fresh in let l := fresh in let Y := fresh in let T := fresh in
      destruct (type_first t G) as (x & l & Y & T); rewrite Y in E; cbn [app] in E; inversion E; subst x; discriminate T
    end end.

Lemma op_tok_infix : forall op, op <> OpUnknown -> In (op_tok op) infix_ops.
Proof. intros op H. destruct op; cbn; tauto. Qed.
Lemma op_tok_of : forall op, op <> OpUnknown -> binop_of (op_tok op) = Ok op.
Proof. intros op H. destruct op; try reflexivity. congruence. Qed.

Lemma dtoks_first : forall d m, readable m d -> exists x l, dtoks d = x :: l /\ first_tok x = true.
Proof.
  induction d as [z|s|op l r0 IHl IHr|tern c t e IHc IHt IHe|e IHe|name args IHargs] using SigEvalProofs.dexpr_ind'; intros m H;
    try (eexists _, _; split; [reflexivity|reflexivity]).
  destruct tern; [|eexists _, _; split; [reflexivity|reflexivity]].
  cbn [readable] in H. destruct H as (_ & H & _). destruct (IHc _ H) as (x & l & E & Hx).
  cbn [dtoks]. rewrite E. eexists _, _. split; [reflexivity|auto].
Qed.

Lemma nf_sym : forall s r, String.eqb s "(" || String.eqb s "!" = false -> nf (TSym s :: r).
Proof. intros s r H. exact H. Qed.
Lemma proper_c : forall x r, first_tok x = false -> x <> TSym "?" -> proper (x :: r).
Proof. intros x r H Hq. split; [exact H|]. intros t E. inversion E. congruence. Qed.

Lemma expr_unique : forall d,
  (readable Operand d -> HD Operand d) /\ (readable Last d -> HD Last d) /\ (readable Alone d -> UD 0 d).
Proof.
  induction d as [z|s|op l r0 IHl IHr|tern c t e IHc IHt IHe|e IHe|name args IHargs] using SigEvalProofs.dexpr_ind'.
  - (* a number *)
    assert (in_int 64 z -> forall m, HD m (DNum z)) as H.
    { intros Hz m h R r' Gh Hh E HR Hr' Hi Hm. cbn [dtoks app] in E. fh; cbn [yield app] in E; try discriminate E.
      - inversion E; subst. split; [|reflexivity]. cbn [visit]. rewrite parse_string_of_Z by auto. reflexivity.
      - nt E. }
    cbn [readable]. split; [|split]; intros Hz; [apply H; auto|apply H; auto|]. apply UD_of_HD, H; auto.
  - (* a name *)
    assert (forall m, HD m (DName s)) as H.
    { intros m h R r' Gh Hh E HR Hr' Hi Hm. cbn [dtoks app] in E. fh; cbn [yield app] in E; try discriminate E.
      - inversion E; subst. destruct q; cbn [qmark app] in *; [|split; reflexivity].
        exfalso. destruct Hr' as [_ Hq]. specialize (Hq R eq_refl). unfold nf in HR. congruence.
      - exfalso. inversion E; subst. destruct Hr' as [Hf _]. discriminate Hf.
      - exfalso. destruct Hm as [Hm|Hm]; [discriminate Hm|]. inversion E; subst. discriminate Hm.
      - nt E. }
    split; [|split]; intros _; [apply H; auto|apply H; auto|]. apply UD_of_HD, H; auto.
  - (* an operation *)
    assert (op <> OpUnknown /\ readable Operand l /\ readable Operand r0 -> forall m, HD m (DBin op l r0)) as H.
    { intros (Hop & Rl & Rr) m h R r' Gh Hh E HR Hr' Hi Hm. cbn [dtoks app] in E. fh; cbn [yield app] in E; try discriminate E.
      - injection E as E. rewrite <- !app_assoc in E. cbn [app] in E.
        destruct IHl as (IHl & _), IHr as (IHr & _ & _).
        specialize (IHl Rl). specialize (IHr Rr).
        assert (HD Last r0) as IHr'.
        { intros h' R' r'' G1 G2 G3 G4 G5 G6 G7. apply (IHr h' R' r''); auto. }
        rewrite <- app_assoc in E. cbn [app] in E.
        destruct (spine _ _ Ge1) as (h & ss & -> & Hh1 & Gh1 & Fs & Y). rewrite Y, <- app_assoc in E.
        assert (proper (op_tok op :: dtoks r0 ++ TSym ")" :: r')) as Pop.
        { apply proper_c; [apply infix_nf, infix_iff, op_tok_infix; auto|]. destruct op; discriminate. }
        assert (nf (syield ss ++ TSym ")" :: R)) as HR1 by (eapply nf_rest; eauto; reflexivity).
        destruct (is_multi h) eqn:Em.
        + (* not a definition *)
          exfalso. destruct h; try discriminate Em.
          destruct (head_cases _ Gh1 Hh1) as [(w & Ec)|[(w & q & Ec)|[(w & args' & Ec & Ga)|[(w & e1 & m1 & defs' & f & n1 & Ec & Ge & Hm1 & Gd & Gf)
            |[(e1 & Ec & Ge)|[(e1 & Ec & Ge)|[(c1 & t1 & e1 & Ec & _)|(t1 & Ec & Gt1)]]]]]]]; try discriminate Ec.
          rewrite Ec in E. destruct (multi_yield w e1 m1 defs' f n1) as (X & [EX|EX]); [|lia]. rewrite EX in E. cbn [app] in E.
          assert (l = DName w /\ op_tok op = TSym "=" /\ yield e1 ++ TNl :: X ++ syield ss ++ TSym ")" :: R = dtoks r0 ++ TSym ")" :: r') as (-> & Eo & E2).
          { clear -E Rl. destruct l as [z|s|op' l1 l2|[] l1 l2 l3|l1|nm args]; cbn [dtoks app readable] in *; try discriminate E; try (destruct Rl; congruence).
            inversion E; subst. rewrite <- app_assoc. cbn [app]. auto. }
          destruct (UD_of_HD _ 0 IHr' e1 _ _ Ge E2) as [_ Ebad]; try reflexivity.
          * apply proper_c; [reflexivity|discriminate].
          * right. split; reflexivity.
          * discriminate Ebad.
        + destruct (IHl h _ _ Gh1 Hh1 E HR1 Pop) as [V E2]; auto.
          destruct ss as [|s ss].
          * exfalso. cbn in E2. inversion E2 as [[E3 E4]]. clear -E3 Hop. destruct op; discriminate E3 || congruence.
          * inversion Fs as [|? ? Hs Hss]; subst. destruct s as [op' e2|t2 e2].
            -- cbn [syield flat_map sfx_yield app] in E2. inversion E2 as [[E3 E4]]. subst op'. rewrite <- app_assoc in E4.
               cbn [sfx_ok] in Hs. destruct Hs as (_ & _ & Ge2).
               destruct (UD_of_HD _ 5 IHr' e2 _ _ Ge2 E4) as [V2 E5].
               ++ eapply nf_rest; eauto. reflexivity.
               ++ apply proper_c; [reflexivity|discriminate].
               ++ reflexivity.
               ++ left. lia.
               ++ assert (ss = []) as -> by (eapply sfx_none with (r' := TSym ")" :: r'); eauto; right; reflexivity).
                  cbn in E5. inversion E5; subst. split; [|reflexivity].
                  cbn [fold_left add_sfx visit]. rewrite op_tok_of, V, V2 by auto. reflexivity.
            -- exfalso. cbn [syield flat_map sfx_yield app] in E2. inversion E2 as [[E3 E4]]. clear -E3. destruct op; discriminate E3.
      - nt E. }
    cbn [readable]. split; [|split]; intros Hz; [apply H; auto|apply H; auto|]. apply UD_of_HD, H; auto.
  - (* a conditional *)
    destruct IHc as (_ & IHcL & IHcA), IHt as (_ & _ & IHtA), IHe as (_ & IHeL & _).
    destruct tern; cbn [readable].
    + split; [intros [H _]; discriminate H|split; [intros [H _]; discriminate H|]].
      intros (_ & Rc & Rt & Re). specialize (IHcL Rc). specialize (IHtA Rt). specialize (IHeL Re).
      intros e0 r r' Ge E Hr Hr' Hi Hq. destruct Hq as [Hq|[Hq Hq']]; [lia|].
      cbn [dtoks] in E. rewrite <- !app_assoc in E. cbn [app] in E. rewrite <- !app_assoc in E. cbn [app] in E.
      destruct (spine _ _ Ge) as (h & ss & -> & Hh1 & Gh1 & Fs & Y). rewrite Y, <- app_assoc in E.
      destruct (dtoks_first t _ Rt) as (x & lx & Ex & Hx).
      destruct (IHcL h _ _ Gh1 Hh1 E) as [V E2].
      * eapply nf_rest; eauto.
      * split; [reflexivity|]. intros t0 E0. inversion E0. subst t0. rewrite Ex. exact Hx.
      * right. reflexivity.
      * right. reflexivity.
      * destruct ss as [|s ss].
        { exfalso. cbn in E2. subst r. discriminate Hq. }
        inversion Fs as [|? ? Hs Hss]; subst. destruct s as [op' e2|t2 e2].
        { exfalso. cbn [syield flat_map sfx_yield app] in E2. inversion E2 as [[E3 E4]]. subst op'. cbn [sfx_ok] in Hs.
          destruct Hs as (_ & Hs & _). cbn in Hs. repeat (destruct Hs as [Hs|Hs]; [discriminate Hs|]). exact Hs. }
        cbn [syield flat_map sfx_yield app] in E2. inversion E2 as [E4]. rewrite <- !app_assoc in E4. cbn [app] in E4.
        cbn [sfx_ok] in Hs. destruct Hs as (_ & Gt2 & Ge2).
        destruct (IHtA t2 _ _ Gt2 E4) as [V2 E5]; try reflexivity.
        { apply proper_c; [reflexivity|discriminate]. }
        { right. split; reflexivity. }
        inversion E5 as [E6].
        destruct (UD_of_HD _ 2 IHeL e2 _ _ Ge2 E6) as [V3 E7]; auto.
        { eapply nf_rest; eauto. }
        assert (ss = []) as -> by (eapply sfx_none with (r' := r'); eauto).
        cbn in E7. subst r'. split; [|reflexivity]. cbn [fold_left add_sfx visit]. rewrite V, V2, V3. reflexivity.
    + assert (readable Alone c /\ readable Alone t /\ readable Last e -> HD Last (DIf false c t e)) as H.
      { intros (Rc & Rt & Re). specialize (IHcA Rc). specialize (IHtA Rt). specialize (IHeL Re).
        intros h R r' Gh Hh E HR Hr' Hi Hm. destruct Hi as [Hi|Hi]; [discriminate Hi|].
        cbn [dtoks app] in E. fh; cbn [yield app] in E; try discriminate E.
        - injection E as E. rewrite <- !app_assoc in E. cbn [app] in E. rewrite <- !app_assoc in E. cbn [app] in E.
          destruct (IHcA c1 _ _ Gc1 E) as [V E2]; try reflexivity.
          { apply proper_c; [reflexivity|discriminate]. }
          { right. split; reflexivity. }
          inversion E2 as [E3].
          destruct (IHtA t1 _ _ Gt1 E3) as [V2 E4]; try reflexivity.
          { apply proper_c; [reflexivity|discriminate]. }
          { right. split; reflexivity. }
          inversion E4 as [E5].
          destruct (UD_of_HD _ 3 IHeL e1 _ _ Ge1 E5) as [V3 E6]; auto.
          split; [|auto]. cbn [visit]. rewrite V, V2, V3. reflexivity.
        - nt E. }
      split; [|split].
      * intros [H' _]. congruence.
      * intros [_ H']. apply H; auto.
      * intros [_ H']. apply UD_of_HD, H; auto.
  - (* a negation *)
    destruct IHe as (_ & IHeL & _).
    assert (readable Last e -> HD Last (DNot e)) as H.
    { intros Re. specialize (IHeL Re). intros h R r' Gh Hh E HR Hr' Hi Hm. destruct Hi as [Hi|Hi]; [discriminate Hi|].
      cbn [dtoks app] in E. fh; cbn [yield app] in E; try discriminate E.
      - injection E as E. destruct (UD_of_HD _ 2 IHeL e1 _ _ Ge1 E) as [V E2]; auto.
        split; [|auto]. cbn [visit]. rewrite V. reflexivity.
      - nt E. }
    cbn [readable]. split; [|split].
    + intros [H' _]. congruence.
    + intros [_ H']. apply H; auto.
    + intros [_ H']. apply UD_of_HD, H; auto.
  - (* a call *)
    assert (identifier name /\ uncapitalised name /\ All (readable Alone) args -> forall m, HD m (DCall name args)) as H.
    { intros (Hn & Hu & Ra) m h R r' Gh Hh E HR Hr' Hi Hm. cbn [dtoks app] in E.
      fh; cbn [yield app] in E; try discriminate E.
      - exfalso. inversion E as [[E1 E2]]. destruct q; cbn in E2; [discriminate E2|]. unfold nf in HR. rewrite E2 in HR. discriminate HR.
      - inversion E as [[E1 E2]]. rewrite <- !app_assoc in E2. cbn [app] in E2.
        destruct (sepby_unique _ dtoks (fun e d => visit e = Ok (XExpr d)) (fun _ => True) (TSym ")") eq_refl ltac:(discriminate)
                    args) with (es := args') (R := R) (r' := r') as [HF ER]; auto.
        + clear -IHargs Ra. induction IHargs as [|d args (_ & _ & IHd) HF IH]; cbn [All] in *; [auto|].
          destruct Ra as [Rd Ra]. split; [|auto]. split; [eapply dtoks_first; eauto|].
          intros e r r' Ge _ E Hr Hr'. apply (IHd Rd e r r'); auto.
          * destruct Hr as (r1 & [-> | ->]); reflexivity.
          * destruct Hr' as (r1 & [-> | ->]); (apply proper_c; [reflexivity|discriminate]).
          * destruct Hr' as (r1 & [-> | ->]); reflexivity.
          * right. split; [destruct Hr as (r1 & [-> | ->])|destruct Hr' as (r1 & [-> | ->])]; reflexivity.
        + clear. induction args'; cbn; auto.
        + split; [|auto]. cbn [visit]. subst w. rewrite lower_fixed by auto.
          rewrite (mapM_good _ (fun e => let! x := visit e in as_expr x) args' args); [reflexivity|].
          clear -HF. induction HF as [|e d es ds He HF IH]; constructor; auto. rewrite He. reflexivity.
      - nt E. }
    cbn [readable]. split; [|split]; intros Hz; [apply H; auto|apply H; auto|]. apply UD_of_HD, H; auto.
Qed.
