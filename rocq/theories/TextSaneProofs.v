(** What reading a text can answer: exactly the sane types. *)

From Coq Require Import ZArith String Ascii Bool Lia List.
From Verif Require Import Base TypesModel TimeModel SigModel TextModel TextSpec TextLexProofs TextNameProofs
  TextTokProofs TextTreeProofs TextTypeProofs TextTopProofs.
From Verif Require SigEvalProofs DecimalProofs TimeProofs.
Import ListNotations.
Local Open Scope list_scope.

(** ** the tokens of a text *)

Definition good_tok (x : tok) : Prop :=
  match x with TId w => identifier w | TAnyVar w => any_variable w | _ => True end.

Lemma span_chars : forall p s, all_chars p (fst (span p s)) = true.
Proof.
  intros p. induction s as [|c s IH]; [reflexivity|]. cbn [span]. destruct (p c) eqn:E; [|reflexivity].
  destruct (span p s) as [a b]. cbn [fst all_chars] in *. rewrite E, IH. reflexivity.
Qed.
Lemma word_good : forall w, is_word w = true -> good_tok (word w).
Proof.
  intros w H. destruct (word w) eqn:E; try exact I.
  - unfold word in E. destruct (existsb _ keywords); [discriminate|]. destruct (is_any_var w) eqn:Ev; [|discriminate].
    inversion E; subst. apply any_variable_iff. auto.
  - assert (text = w) as ->; [|apply identifier_iff; auto].
    unfold word in E. destruct (existsb _ keywords); [discriminate|]. destruct (is_any_var w); inversion E; auto.
Qed.
Lemma next_good : forall c s, match fst (next c s) with Some t => good_tok t | None => True end.
Proof.
  intros c s. unfold next. destruct (is_letter c) eqn:El.
  - pose proof (span_chars is_word_char s) as Hs. destruct (span is_word_char s) as [w r]. cbn [fst] in Hs.
    destruct (String.eqb _ "u" && _); [exact I|]. cbn [fst]. apply word_good. unfold is_word. rewrite El, Hs. reflexivity.
  - destruct (is_digit c); [destruct (number c s); exact I|].
    destruct (Ascii.eqb c "010"); [exact I|].
    destruct (Ascii.eqb c "-" && first_is is_digit s); [destruct s as [|d s']; [exact I|destruct (number d s'); exact I]|].
    destruct (Ascii.eqb c "/" && first_is (Ascii.eqb "/") s); [exact I|].
    destruct (if Ascii.eqb c "/" && first_is (Ascii.eqb "*") s then block_comment (str_tail s) else None); [exact I|].
    destruct (existsb _ symbols2); [exact I|]. destruct (existsb _ symbols1); exact I.
Qed.
Lemma lex_good : forall s, Forall good_tok (lex s).
Proof.
  intros s. unfold lex. generalize (String.length s). intros n. revert s. induction n as [|n IH]; intros s; [constructor|].
  destruct s as [|c s]; [constructor|]. cbn [lex_fuel]. pose proof (next_good c s) as G. destruct (next c s) as [[t|] r]; cbn [fst] in G; auto.
Qed.

(** ** reading *)

Definition sane_visit (s : gsort) (x : visited) : Prop :=
  match x with
  | XType f => sane f /\ (s = GType -> match f with FDeriv _ _ => False | _ => True end)
  | XExpr d => sane_expr d
  | XInt i => numeral_or_name i
  | XTypes l => All sane l
  end.

Lemma parse_number_range : forall w z, parse_number w = Ok z -> in_int 64 z.
Proof.
  intros w z H. unfold parse_number, atoi in H. cbv zeta in H.
  match type of H with match (match ?X with _ => _ end) with _ => _ end = _ => destruct X as [y|] end; [|discriminate].
  match type of H with match (if ?b then _ else _) with _ => _ end = _ => destruct b eqn:E end; [|discriminate].
  inversion H; subst. apply andb_true_iff in E as [E1 E2]. unfold in_int. lia.
Qed.

Lemma marked_null : forall q, marked (null_of q) 0.
Proof. intros []; (split; [|reflexivity]); [left|right]; reflexivity. Qed.

Lemma binop_known : forall op o, binop_of op = Ok o -> o <> OpUnknown.
Proof.
  intros op o H ->. unfold binop_of in H. repeat match type of H with (match ?x with _ => _ end) = _ => destruct x end; discriminate H.
Qed.

Lemma all_good : forall A (f : A -> list tok) l, Forall good_tok (sepby f l) -> All (fun x => Forall good_tok (f x)) l.
Proof.
  intros A f. induction l as [|x l IH]; cbn [sepby All]; intros H; [auto|]. apply Forall_app in H as [Hx Hl]. split; [auto|].
  apply IH. destruct l; [constructor|]. inversion Hl; auto.
Qed.

Lemma lower_same : forall s, same_letters s (lower s).
Proof.
  intros s. apply same_letters_iff. induction s as [|c s IH]; cbn [lower]; [reflexivity|]. f_equal; [|exact IH].
  destruct c as [[] [] [] [] [] [] [] []]; reflexivity.
Qed.
Lemma lower_lower : forall s, lower (lower s) = lower s.
Proof. intros s. pose proof (lower_same s) as H. apply same_letters_iff in H. auto. Qed.
Lemma lower_uncapitalised : forall s, uncapitalised (lower s).
Proof.
  unfold uncapitalised, chars. induction s as [|c s IH]; cbn [lower list_ascii_of_string]; constructor; [|exact IH].
  intros Hc. apply upper_char_iff in Hc. revert Hc. destruct c as [[] [] [] [] [] [] [] []]; discriminate.
Qed.
Lemma lower_identifier : forall s, identifier s -> identifier (lower s).
Proof.
  intros s H. apply identifier_iff in H as [Hw Ht]. apply identifier_iff. split.
  - destruct s as [|c s]; [discriminate|]. cbn [is_word lower] in *. apply andb_true_iff in Hw as [Hc Hs]. apply andb_true_iff. split.
    + clear -Hc. destruct c as [[] [] [] [] [] [] [] []]; auto.
    + clear -Hs. induction s as [|c s IH]; cbn [lower all_chars] in *; [auto|]. apply andb_true_iff in Hs as [Hc Hs].
      apply andb_true_iff. split; [|auto]. clear -Hc. destruct c as [[] [] [] [] [] [] [] []]; auto.
  - unfold word in *. rewrite lower_lower. destruct (existsb _ keywords); [discriminate|].
    assert (is_any_var (lower s) = is_any_var s) as -> by (unfold is_any_var; rewrite lower_lower; reflexivity).
    destruct (is_any_var s); [discriminate|reflexivity].
Qed.

Lemma mapM_all : forall A B (f : A -> res B) (Q : B -> Prop) (l : list A) l',
  All (fun x => forall y, f x = Ok y -> Q y) l -> mapM f l = Ok l' -> All Q l'.
Proof.
  intros A B f Q. induction l as [|x l IH]; intros l' H E; cbn [mapM All] in *.
  - inversion E; subst. exact I.
  - destruct H as [Hx Hl]. destruct (f x) as [y| |] eqn:Ex; cbn [bind] in E; try discriminate.
    destruct (mapM f l) as [ys| |]; cbn [bind] in E; try discriminate. inversion E; subst. cbn [All]. split; auto.
Qed.
Lemma mapM_nonempty : forall A B (f : A -> res B) l l', mapM f l = Ok l' -> l <> [] -> l' <> [].
Proof.
  intros A B f [|x l] l' E H; [congruence|]. cbn [mapM] in E. destruct (f x); cbn [bind] in E; try discriminate.
  destruct (mapM f l); cbn [bind] in E; try discriminate. inversion E. discriminate.
Qed.

Lemma bind_ok : forall A B (r : res A) (k : A -> res B) y, bind r k = Ok y -> exists a, r = Ok a /\ k a = Ok y.
Proof. intros A B [a| |] k y H; cbn in H; try discriminate. eauto. Qed.
Ltac okb E := (* take apart a successful bind *)
  match type of E with
  | bind ?r _ = Ok _ => let H := fresh "V" in let a := fresh "a" in apply bind_ok in E; destruct E as (a & H & E)
  | TextModel.as_type ?x = Ok _ => destruct x; cbn [TextModel.as_type] in E; try discriminate E
  | as_expr ?x = Ok _ => destruct x; cbn [as_expr] in E; try discriminate E
  | TextModel.as_int ?x = Ok _ => destruct x; cbn [TextModel.as_int] in E; try discriminate E
  end.
Ltac gd := repeat match goal with
  | H : Forall good_tok (_ ++ _) |- _ => apply Forall_app in H as [? H]
  | H : Forall good_tok (_ :: _) |- _ => inversion H; subst; clear H
  end.

Lemma visit_sane : forall t s x, gram s t -> Forall good_tok (yield t) -> visit t = Ok x -> sane_visit s x.
Proof.
  induction t as [t IH] using tree_ind2. intros s x G Y E.
  assert (forall l l', All (fun t => forall s x, gram s t -> Forall good_tok (yield t) -> visit t = Ok x -> sane_visit s x) l ->
    All (gram (GExpr 0)) l -> Forall good_tok (sepby yield l) ->
    mapM (fun e => let! x := visit e in TextModel.as_type x) l = Ok l' -> All sane l') as HT.
  { clear. intros l l' IH G Y E. eapply mapM_all; [|exact E]. apply all_good in Y. clear E. induction l as [|e l IHl]; cbn [All] in *; [auto|].
    destruct IH as [I1 I2], G as [G1 G2], Y as [Y1 Y2]. split; [|auto]. intros y E. okb E. okb E. inversion E; subst. apply (I1 _ _ G1 Y1 V). }
  destruct t; cbn [yield subs visit] in *; cbn [gram] in G.
  - destruct (scalar_prim kw); [|discriminate]. inversion E; subst. split; [apply marked_null|auto].
  - destruct (single_kind kw); [|discriminate]. destruct G as (_ & _ & G). gd.
    okb E. okb E. okb V0. inversion E; subst. inversion V0; subst.
    split; [|auto]. split; [apply marked_null|]. apply (IH GNumeric _ G ltac:(assumption) V).
  - destruct G as (_ & G1 & G2), IH as [I1 I2]. gd. okb E. okb E. okb V0. okb E. okb E. okb V2. inversion E; subst. inversion V0; inversion V2; subst.
    split; [|auto]. split; [apply marked_null|]. split; [apply (I1 GNumeric _ G1 ltac:(assumption) V)|apply (I2 GNumeric _ G2 ltac:(assumption) V1)].
  - destruct G as (_ & Hne & G). gd. okb E. inversion E; subst. split; [|auto]. split; [apply marked_null|].
    split; [eapply mapM_nonempty; eauto|eapply HT; eauto].
  - discriminate E.
  - destruct G as (_ & G). gd. okb E. okb E. okb V0. inversion E; subst. inversion V0; subst. split; [|auto]. split; [apply marked_null|].
    apply (IH (GExpr 0) _ G ltac:(assumption) V).
  - destruct G as (_ & G1 & G2), IH as [I1 I2]. gd. okb E. okb E. okb E. okb E. okb V1. okb V2. inversion E; inversion V1; inversion V2; subst.
    split; [|auto]. split; [apply marked_null|]. split; [apply (I1 (GExpr 0) _ G1 ltac:(assumption) V)|apply (I2 (GExpr 0) _ G2 ltac:(assumption) V0)].
  - destruct G as (_ & G1 & G2), IH as [I1 I2]. gd. okb E. okb E. okb E. okb V1. inversion E; inversion V1; subst.
    pose proof (I1 GParams _ G1 ltac:(assumption) V) as S1. pose proof (I2 (GExpr 0) _ G2 ltac:(assumption) V0) as S2.
    split; [|auto]. split; [apply marked_null|]. split; [|apply S2]. destruct a; cbn in *; try tauto.
  - destruct G as (_ & G). inversion Y as [|? ? _ Y']; subst. inversion Y' as [|? ? Hn Y2]; subst. apply Forall_app in Y2 as [_ Y2].
    okb E. inversion E; subst. split; [|auto]. split; [apply marked_null|]. split; [exact Hn|].
    assert (Forall good_tok (sepby yield ps)) as Y3.
    { destruct ps as [|p ps]; [constructor|]. remember (p :: ps) as l. inversion Y2; subst. apply Forall_app in H2 as [H2 _]. exact H2. }
    apply all_good in Y3. eapply mapM_all; [|exact V]. clear -IH G Y3. induction ps as [|e l IHl]; cbn [All] in *; [auto|].
    destruct IH as [I1 I2], G as [G1 G2], Y3 as [Y1 Y2]. split; [|auto]. intros y E. okb E. pose proof (I1 _ _ G1 Y1 V) as S.
    destruct a as [f|[z|s|? ? ?|? ? ? ?|?|? ?]|i|?]; cbn [user_param] in E; try discriminate E; inversion E; subst; cbn [sane_visit sane_expr] in S.
    + apply S.
    + apply TimeProofs.wrap_range. lia.
    + exact S.
  - inversion E; subst. split; [|auto]. split; [apply marked_null|auto].
  - inversion E; subst. gd. split; [|auto]. split; [apply marked_null|auto].
  - okb E. inversion E; subst. cbn. apply TimeProofs.wrap_range. lia.
  - inversion E; subst. gd. assumption.
  - destruct G as (-> & G & _). pose proof (IH _ _ G Y E) as S. destruct x; cbn [sane_visit] in *; auto. split; [tauto|discriminate].
  - destruct G as (-> & G). pose proof (IH _ _ G Y E) as S. destruct x; cbn [sane_visit] in *; auto. split; [tauto|discriminate].
  - destruct G as (_ & _ & G). gd. okb E. inversion E; subst. eapply HT; eauto.
  - destruct G as ((l & ->) & G). gd. pose proof (IH _ _ G ltac:(assumption) E) as S. destruct x; cbn [sane_visit] in *; auto. split; [tauto|discriminate].
  - destruct G as ((l & ->) & Hne & Gd & Gf), IH as [Id If]. apply Forall_app in Y as [Yd Y]. apply Forall_app in Y as [Yf _].
    okb E. okb E. okb E. okb V1. inversion E; inversion V1; subst. split; [|discriminate].
    destruct (If _ _ Gf Yf V0) as [Sf Nf]. cbn [sane]. split; [eapply mapM_nonempty; eauto|]. split; [|split; [exact Sf|exact (Nf eq_refl)]].
    eapply mapM_all; [|exact V]. clear -Id Gd Yd. induction defs as [|[[y e] m] defs IHd]; cbn [All concat_map fst snd] in *; [auto|].
    apply Forall_app in Yd as [Y1 Y2]. destruct Id as [I1 I2], Gd as [[G1 _] G2]. split; [|auto].
    intros [x d] E. okb E. okb E. okb V0. inversion E; inversion V0; subst. inversion Y1 as [|? ? Hx Y3]; subst. inversion Y3 as [|? ? _ Y4]; subst.
    apply Forall_app in Y4 as [Y4 _]. split; [exact Hx|]. exact (I1 _ _ G1 Y4 V).
  - destruct G as ((l & ->) & G). pose proof (IH _ _ G Y E) as S. destruct x; cbn [sane_visit] in *; auto. split; [tauto|discriminate].
  - okb E. inversion E; subst. cbn. eapply parse_number_range; eauto.
  - inversion E; subst. gd. assumption.
  - destruct G as (_ & G). gd. okb E. inversion E; subst. cbn [sane_visit sane_expr].
    split; [apply lower_identifier; assumption|]. split; [apply lower_uncapitalised|].
    match goal with H : Forall good_tok (sepby yield args) |- _ => apply all_good in H; rename H into Y3 end.
    eapply mapM_all; [|exact V]. clear -IH G Y3. induction args as [|e l' IHl]; cbn [All] in *; [auto|].
    destruct IH as [I1 I2], G as [G1 G2], Y3 as [Y1 Y2]. split; [|auto]. intros y E. okb E. okb E. inversion E; subst. apply (I1 _ _ G1 Y1 V).
  - destruct G as (_ & G1 & G2 & G3), IH as (I1 & I2 & I3). gd. okb E. okb E. okb V0. okb E. okb E. okb V2. okb E. okb E. okb V4.
    inversion E; inversion V0; inversion V2; inversion V4; subst. cbn [sane_visit sane_expr].
    split; [exact (I1 _ _ G1 ltac:(assumption) V)|]. split; [exact (I2 _ _ G2 ltac:(assumption) V1)|exact (I3 _ _ G3 ltac:(assumption) V3)].
  - destruct G as (_ & G). gd. okb E. okb E. okb V0. inversion E; inversion V0; subst. exact (IH _ _ G ltac:(assumption) V).
  - destruct G as (_ & _ & G1 & G2), IH as (I1 & I2). gd. okb E. okb E. okb E. okb V1. okb E. okb E. okb V3.
    inversion E; inversion V1; inversion V3; subst. cbn [sane_visit sane_expr].
    split; [eapply binop_known; eauto|]. split; [exact (I1 _ _ G1 ltac:(assumption) V0)|exact (I2 _ _ G2 ltac:(assumption) V2)].
  - destruct G as (_ & G1 & G2 & G3), IH as (I1 & I2 & I3). gd. okb E. okb E. okb V0. okb E. okb E. okb V2. okb E. okb E. okb V4.
    inversion E; inversion V0; inversion V2; inversion V4; subst. cbn [sane_visit sane_expr].
    split; [exact (I1 _ _ G1 ltac:(assumption) V)|]. split; [exact (I2 _ _ G2 ltac:(assumption) V1)|exact (I3 _ _ G3 ltac:(assumption) V3)].
Qed.

(** ** writing *)

(** Every list of these tokens is the tokens of some text. *)
Definition used_symbols : list string :=
  ["+"; "-"; "*"; "/"; "="; ">"; "<"; "!"; "("; ")"; ","; ":"; "?"; "!="; ">="; "<="; "->"]%string.
Definition spelled (x : tok) : Prop :=
  match x with
  | TKw k => k = "u!"%string \/ In k keywords
  | TAnyVar w => any_variable w
  | TNum w => exists z, w = string_of_Z z
  | TId w => identifier w
  | TSym s => In s used_symbols
  | TNl => True
  end.
Definition tok_text (x : tok) : string :=
  match x with TKw w | TAnyVar w | TNum w | TId w | TSym w => w | TNl => newline end.

Lemma spelled_lex : forall x r, spelled x -> lex (tok_text x ++ " " ++ r)%string = x :: lex r.
Proof.
  intros x r H. rewrite <- (lex_space r). destruct x; cbn [tok_text spelled] in *.
  - destruct H as [-> | H]; [apply lex_user|].
    rewrite lex_word; [|clear r|brk].
    + f_equal. cbn in H. repeat (destruct H as [<-|H]; [reflexivity|]). destruct H.
    + cbn in H. repeat (destruct H as [<-|H]; [reflexivity|]). destruct H.
  - destruct (any_variable_word _ H) as [Hw Ht]. rewrite lex_word, Ht by (auto; brk). reflexivity.
  - destruct H as (z & ->). apply lex_number. brk.
  - rewrite lex_word, identifier_tok by (auto using identifier_word; brk). reflexivity.
  - cbn in H. repeat (destruct H as [<-|H]; [cbn [String.append]; rewrite lex_cons; reflexivity|]). destruct H.
  - apply lex_newline.
Qed.

Fixpoint spell (l : list tok) : string :=
  match l with [] => "" | x :: l' => tok_text x ++ " " ++ spell l' end%string.
Lemma spell_lex : forall l, Forall spelled l -> lex (spell l) = l.
Proof. induction l as [|x l IH]; intros H; [reflexivity|]. inversion H; subst. cbn [spell]. rewrite spelled_lex, IH; auto. Qed.

Lemma spelled_sepby : forall A (f : A -> list tok) l, All (fun x => Forall spelled (f x)) l -> Forall spelled (sepby f l).
Proof.
  intros A f. induction l as [|x l IH]; cbn [All sepby]; intros H; [constructor|]. destruct H as [Hx Hl]. apply Forall_app. split; [auto|].
  destruct l; [constructor|]. constructor; [cbn; tauto|auto].
Qed.

(** A tree for every expression: parentheses wherever they could be needed. *)
Fixpoint sdtree (d : dexpr) : tree :=
  match d with
  | DNum z => PLit (string_of_Z z)
  | DName s => PName s false
  | DBin op l r => PParen (PBin (op_tok op) (sdtree l) (sdtree r))
  | DIf true c t e => PParen (PTern (sdtree c) (sdtree t) (sdtree e))
  | DIf false c t e => PParen (PIf (sdtree c) (sdtree t) (sdtree e))
  | DNot e => PParen (PNot (sdtree e))
  | DCall name args => PCall name (map sdtree args)
  end.

Ltac sp := repeat match goal with
  | |- Forall spelled (_ ++ _) => apply Forall_app; split
  | |- Forall spelled (_ :: _) => constructor
  | |- Forall spelled [] => constructor
  | |- spelled (TSym _) => cbn; tauto
  | |- spelled (TKw _) => cbn; tauto
  end.

Lemma op_spelled : forall op, op <> OpUnknown -> spelled (op_tok op).
Proof. intros op H. destruct op; cbn; tauto. Qed.

Lemma sdtree_ok : forall d, sane_expr d ->
  (forall p, gram (GExpr p) (sdtree d)) /\ Forall spelled (yield (sdtree d)) /\ visit (sdtree d) = Ok (XExpr d).
Proof.
  induction d as [z|s|op l r IHl IHr|tern c t e IHc IHt IHe|e IHe|name args IHargs] using SigEvalProofs.dexpr_ind'; cbn [sdtree sane_expr]; intros H.
  - split; [cbn; eauto|]. split; [cbn; constructor; [cbn; eauto|constructor]|]. cbn [visit]. rewrite parse_string_of_Z by auto. reflexivity.
  - split; [cbn; eauto|]. split; [cbn; constructor; [exact H|constructor]|]. reflexivity.
  - destruct H as (Hop & Hl & Hr). destruct (IHl Hl) as (Gl & Yl & Vl), (IHr Hr) as (Gr & Yr & Vr). split; [|split].
    + intros p. cbn [gram]. split; [eauto|]. split; [exists 0%nat; split; [auto|lia]|]. auto using op_tok_infix.
    + cbn [yield]. sp; auto using op_spelled.
    + cbn [visit]. rewrite op_tok_of, Vl, Vr by auto. reflexivity.
  - destruct H as (Hc & Ht & He). destruct (IHc Hc) as (Gc & Yc & Vc), (IHt Ht) as (Gt & Yt & Vt), (IHe He) as (Ge & Ye & Ve).
    destruct tern; (split; [|split]).
    + intros p. cbn [gram]. split; [eauto|]. split; [exists 0%nat; split; [auto|lia]|]. auto.
    + cbn [yield]. sp; auto.
    + cbn [visit]. rewrite Vc, Vt, Ve. reflexivity.
    + intros p. cbn [gram]. split; [eauto|]. split; [eauto|]. auto.
    + cbn [yield]. sp; auto.
    + cbn [visit]. rewrite Vc, Vt, Ve. reflexivity.
  - destruct (IHe H) as (Ge & Ye & Ve). split; [|split].
    + intros p. cbn [gram]. split; [eauto|]. split; [eauto|]. auto.
    + cbn [yield]. sp; auto.
    + cbn [visit]. rewrite Ve. reflexivity.
  - destruct H as (Hn & Hu & Ha).
    assert (All (fun d => (forall p, gram (GExpr p) (sdtree d)) /\ Forall spelled (yield (sdtree d)) /\ visit (sdtree d) = Ok (XExpr d)) args) as HA.
    { clear -IHargs Ha. induction IHargs; cbn [All] in *; intuition auto. }
    clear IHargs Ha. split; [|split].
    + intros p. cbn [gram]. split; [eauto|]. clear -HA. induction args; cbn [map All] in *; [auto|]. destruct HA as [[G _] HA]. auto.
    + cbn [yield]. sp; [exact Hn|]. apply spelled_sepby. clear -HA. induction args; cbn [map All] in *; [auto|]. destruct HA as [(_ & Y & _) HA]. auto.
    + cbn [visit]. rewrite lower_fixed by auto.
      rewrite (mapM_good _ _ (map sdtree args) args); [reflexivity|].
      clear -HA. induction args; cbn [map All] in *; [constructor|]. destruct HA as [(_ & _ & V) HA]. constructor; [rewrite V; reflexivity|auto].
Qed.

Definition under (t : tree) : tree := match t with PType t => t | _ => t end.

Fixpoint stree (f : fdt) : tree :=
  match f with
  | FPrim p n _ => PType (PScalar (prim_name p) (Z.eqb n 1))
  | FEnum _ _ _ _ _ => PType (PAny false)
  | FSingle k n _ i => PType (PSingle (single_name k) (Z.eqb n 1) (itree i))
  | FDecimal n _ p s => PType (PDecimal (Z.eqb n 1) (itree p) (itree s))
  | FAny name _ n => PType (if String.eqb name "any" then PAny (Z.eqb n 1) else PAnyVar name (Z.eqb n 1))
  | FList n _ e => PType (PList (Z.eqb n 1) (stree e))
  | FMap n _ k x => PType (PMap (Z.eqb n 1) (stree k) (stree x))
  | FStruct n _ fs => PType (PStruct (Z.eqb n 1) (map stree fs))
  | FFunc n ps r =>
      PType (PFunc (Z.eqb n 1)
        match map stree ps with [] => PParam (PLit (string_of_Z 0)) | [p] => PParam p | l => PParams l end (stree r))
  | FUser n _ ps name => PType (PUser name (Z.eqb n 1) (map sutree ps))
  | FDeriv l g => PMulti (map (fun a => (fst a, sdtree (snd a), 1%nat)) l) (under (stree g)) 0
  end
with sutree (p : udtp) : tree :=
  match p with
  | UData f => stree f
  | UInt z => PLit (string_of_Z z)
  | UStr s => PName s false
  end.

Definition tree_good (f : fdt) : Prop :=
  (forall p, gram (GExpr p) (stree f)) /\ Forall spelled (yield (stree f)) /\ visit (stree f) = Ok (XType f) /\
  match f with FDeriv _ _ => True | _ => exists t, stree f = PType t end.

Lemma itree_ok : forall i, numeral_or_name i -> gram GNumeric (itree i) /\ Forall spelled (yield (itree i)) /\ visit (itree i) = Ok (XInt i).
Proof.
  intros [z|s] H; cbn [itree numeral_or_name] in *.
  - split; [reflexivity|]. split; [cbn; constructor; [cbn; eauto|constructor]|]. cbn [visit].
    rewrite parse_string_of_Z by (unfold in_int in *; cbn in *; lia). cbn [bind].
    rewrite DecimalProofs.wrap_small by (unfold in_int in H; cbn in H; lia). reflexivity.
  - split; [reflexivity|]. split; [cbn; constructor; [exact H|constructor]|reflexivity].
Qed.

Lemma qmark_spelled : forall q, Forall spelled (qmark q).
Proof. destruct q; cbn; repeat constructor; cbn; tauto. Qed.
Lemma null_of_mark : forall n v, marked n v -> null_of (Z.eqb n 1) = n /\ v = 0%Z.
Proof. intros n v [[-> | ->] ->]; split; reflexivity. Qed.
Ltac mk H := let E := fresh in let E' := fresh in destruct (null_of_mark _ _ H) as [E E']; subst.

Lemma types_ok : forall fs, All tree_good fs ->
  All (gram (GExpr 0)) (map stree fs) /\ Forall spelled (sepby yield (map stree fs)) /\
  mapM (fun e => let! x := visit e in TextModel.as_type x) (map stree fs) = Ok fs.
Proof.
  intros fs H. split; [|split].
  - induction fs; cbn [map All] in *; [auto|]. destruct H as [[G _] H]. auto.
  - apply spelled_sepby. induction fs; cbn [map All] in *; [auto|]. destruct H as [(_ & Y & _) H]. auto.
  - apply mapM_good. induction fs; cbn [map All] in *; [constructor|]. destruct H as [(_ & _ & V & _) H]. constructor; [rewrite V; reflexivity|auto].
Qed.

Lemma stree_ok : forall f, sane f -> tree_good f.
Proof.
  induction f as [p n v|b n v name l|k n v i|n v p s|name v n|n v e IHe|n v k x IHk IHx|n v fs IHfs
                 |n ps r0 IHps IHr|n v ps name IHps|l f IHf] using fdt_ind2;
    cbn [sane]; intros S; try tauto; unfold tree_good; cbn [stree].
  - destruct (null_of_mark _ _ S) as [En ->]. split; [|split; [|split; [|eauto]]].
    + intros q. cbn [gram]. split; [eauto|]. split; [auto|]. destruct p; cbn; tauto.
    + cbn [yield]. constructor; [|apply qmark_spelled]. destruct p; cbn; tauto.
    + cbn [visit]. rewrite scalar_prim_name, En. reflexivity.
  - destruct S as [S Hi]. destruct (null_of_mark _ _ S) as [En ->], (itree_ok i Hi) as (Gi & Yi & Vi). split; [|split; [|split; [|eauto]]].
    + intros q. cbn [gram]. split; [eauto|]. split; [auto|]. split; [destruct k as [[]| | | |]; cbn; tauto|auto].
    + cbn [yield]. sp; auto using qmark_spelled. destruct k as [[]| | | |]; cbn; tauto.
    + cbn [visit]. rewrite single_kind_name, Vi, En. reflexivity.
  - destruct S as (S & Hp & Hs). destruct (null_of_mark _ _ S) as [En ->], (itree_ok p Hp) as (Gp & Yp & Vp), (itree_ok s Hs) as (Gs & Ys & Vs).
    split; [|split; [|split; [|eauto]]].
    + intros q. cbn [gram]. split; [eauto|]. auto.
    + cbn [yield]. sp; auto using qmark_spelled.
    + cbn [visit]. rewrite Vp, Vs, En. reflexivity.
  - destruct S as (S & Hn). destruct (null_of_mark _ _ S) as [En ->]. split; [|split; [|split; [|eauto]]].
    + intros q. cbn [gram]. split; [eauto|]. destruct (String.eqb name "any"); reflexivity.
    + cbn [yield]. destruct (String.eqb_spec name "any") as [->|Hne]; cbn [yield]; (constructor; [|apply qmark_spelled]).
      * cbn; tauto.
      * destruct Hn as [Hn|Hn]; [congruence|exact Hn].
    + cbn [visit]. destruct (String.eqb_spec name "any") as [->|Hne]; cbn [visit]; rewrite En; reflexivity.
  - destruct S as (S & He). destruct (null_of_mark _ _ S) as [En ->], (IHe He) as (Ge & Ye & Ve & _). split; [|split; [|split; [|eauto]]].
    + intros q. cbn [gram]. split; [eauto|]. auto.
    + cbn [yield]. sp; auto using qmark_spelled.
    + cbn [visit]. rewrite Ve, En. reflexivity.
  - destruct S as (S & Hk & Hx). destruct (null_of_mark _ _ S) as [En ->], (IHk Hk) as (Gk & Yk & Vk & _), (IHx Hx) as (Gx & Yx & Vx & _).
    split; [|split; [|split; [|eauto]]].
    + intros q. cbn [gram]. split; [eauto|]. auto.
    + cbn [yield]. sp; auto using qmark_spelled.
    + cbn [visit]. rewrite Vk, Vx, En. reflexivity.
  - destruct S as (S & Hne & Hf). destruct (null_of_mark _ _ S) as [En ->], (types_ok fs (All_mp _ _ _ _ Hf IHfs)) as (Gs & Ys & Vs).
    split; [|split; [|split; [|eauto]]].
    + intros q. cbn [gram]. split; [eauto|]. split; [auto|]. split; [destruct fs; [congruence|discriminate]|auto].
    + cbn [yield]. sp; auto using qmark_spelled.
    + cbn [visit]. rewrite Vs, En. reflexivity.
  - destruct S as (S & Hp & Hr). destruct (null_of_mark _ _ S) as [En _], (types_ok ps (All_mp _ _ _ _ Hp IHps)) as (Gs & Ys & Vs), (IHr Hr) as (Gr & Yr & Vr & _).
    set (P := match map stree ps with [] => _ | _ => _ end).
    assert (gram GParams P /\ Forall spelled (yield P) /\
      exists x, visit P = Ok x /\ match x with XTypes l => l | XType f => [f] | _ => [] end = ps) as (GP & YP & x & VP & EP).
    { subst P. destruct ps as [|p [|p' ps]].
      - cbn [map]. split; [cbn; eauto|]. split; [constructor; [exists 0%Z; reflexivity|constructor]|]. eexists. split; [reflexivity|reflexivity].
      - cbn [map All sepby] in *. destruct Gs as [G _]. rewrite app_nil_r in Ys. split; [cbn; auto|]. split; [exact Ys|].
        cbn [mapM] in Vs. apply bind_ok in Vs as (a & V & Vs). apply bind_ok in V as (v & V & Va). destruct v; cbn in Va; try discriminate.
        inversion Va; subst. cbn in Vs. inversion Vs; subst. cbn [visit]. eauto.
      - remember (map stree (p :: p' :: ps)) as es. assert (es = stree p :: stree p' :: map stree ps) as E2 by (subst; reflexivity).
        destruct es as [|e1 [|e2 es]]; try discriminate E2. remember (e1 :: e2 :: es) as es0.
        split; [cbn [gram]; split; [auto|]; split; [subst; cbn; lia|auto]|].
        split; [cbn [yield]; sp; auto|]. cbn [visit]. rewrite Vs. eexists. split; [reflexivity|reflexivity]. }
    clearbody P. split; [|split; [|split; [|eauto]]].
    + intros q. cbn [gram]. split; [eauto|]. auto.
    + cbn [yield]. sp; auto using qmark_spelled.
    + cbn [visit]. rewrite VP, Vr. cbn [bind TextModel.as_type]. rewrite EP, En. reflexivity.
  - destruct S as (S & Hname & Hp). destruct (null_of_mark _ _ S) as [En ->].
    assert (All (fun p => gram (GExpr 0) (sutree p) /\ Forall spelled (yield (sutree p)) /\ (let! x := visit (sutree p) in user_param x) = Ok p) ps) as HA.
    { clear -IHps Hp. induction ps as [|p ps IH]; cbn [All] in *; [auto|]. destruct IHps as [Ip Ips], Hp as [Hp Hps]. split; [|auto].
      destruct p as [f|z|s]; cbn [sutree uholds] in *.
      - destruct (Ip Hp) as (G & Y & V & _). rewrite V. auto.
      - split; [cbn; eauto|]. split; [cbn; constructor; [cbn; eauto|constructor]|]. cbn [visit].
        rewrite parse_string_of_Z by (unfold in_int in *; cbn in *; lia). cbn [bind user_param].
        rewrite DecimalProofs.wrap_small by (unfold in_int in Hp; cbn in Hp; lia). reflexivity.
      - split; [cbn; eauto|]. split; [cbn; constructor; [exact Hp|constructor]|reflexivity]. }
    assert (Forall spelled (sepby yield (map sutree ps))) as Ys.
    { apply spelled_sepby. clear -HA. induction ps; cbn [map All] in *; [auto|]. destruct HA as [(_ & Y & _) HA]. auto. }
    split; [|split; [|split; [|eauto]]].
    + intros q. cbn [gram]. split; [eauto|]. split; [auto|]. clear -HA. induction ps; cbn [map All] in *; [auto|]. destruct HA as [(G & _) HA]. auto.
    + cbn [yield]. constructor; [cbn; tauto|]. constructor; [exact Hname|]. apply Forall_app. split; [apply qmark_spelled|].
      destruct (map sutree ps); [constructor|]. sp; auto.
    + cbn [visit]. rewrite (mapM_good _ _ (map sutree ps) ps), En; [reflexivity|].
      clear -HA. induction ps; cbn [map All] in *; [constructor|]. destruct HA as [(_ & _ & V) HA]. constructor; auto.
  - destruct S as (Hne & Hl & Hf & Hd). destruct (IHf Hf) as (Gf & Yf & Vf & Tf).
    assert (exists t, stree f = PType t) as (t & Et) by (destruct f; auto; destruct Hd). rewrite Et in *. cbn [under yield visit] in *.
    assert (gram GType t) as Gt by (specialize (Gf 0%nat); cbn in Gf; tauto).
    split; [|split; [|split; [|exact I]]].
    + intros q. cbn [gram]. split; [eauto|]. split; [destruct l; [congruence|discriminate]|]. split; [|auto].
      clear -Hl. induction l as [|[x d] l IH]; cbn [map All fst snd] in *; [auto|]. destruct Hl as [[_ Hd] Hl]. split; [|auto].
      split; [apply sdtree_ok; auto|lia].
    + cbn [repeat]. rewrite app_nil_r. apply Forall_app. split; [|auto].
      clear -Hl. induction l as [|[x d] l IH]; cbn [map All concat_map fst snd] in *; [constructor|]. destruct Hl as [[Hx Hd] Hl].
      apply Forall_app. split; [|auto]. constructor; [exact Hx|]. constructor; [cbn; tauto|]. apply Forall_app. split; [apply sdtree_ok; auto|repeat constructor].
    + match goal with |- bind (mapM ?F ?L) _ = _ => assert (mapM F L = Ok l) as EM end.
      { clear -Hl. induction l as [|[x d] l IH]; cbn [map All mapM fst snd] in *; [reflexivity|]. destruct Hl as [[Hx Hd] Hl].
        destruct (sdtree_ok d Hd) as (_ & _ & V). rewrite V. cbn [bind as_expr]. rewrite IH; auto. }
      rewrite EM, Vf. reflexivity.
Qed.
