(** C55-C58: types as text. *)

From Coq Require Import ZArith String Ascii Bool Lia List.
From Verif Require Import Base TypesModel TimeModel SigModel TextModel TextSpec TextLexProofs TextNameProofs
  TextTokProofs TextTreeProofs TextTypeProofs TextTopProofs TextSaneProofs
  TextGrammarSpec TextMeaningProofs TextMunchProofs TextCaseProofs.
From Verif Require TypesProofs.
Import ListNotations.
Local Open Scope string_scope.

(** * C55: a printed type reads back as itself *)

(** The text of a writable type (or of one with a derivation) has a tree, and
    whatever tree the parser finds is read as the type that was printed. *)
Theorem C55_round_trip : forall f, written f ->
  (exists t, tree_of (fdt_string f) t) /\
  forall t, tree_of (fdt_string f) t -> parse_tree t = Ok f.
Proof.
  intros f W. unfold tree_of. rewrite (lex_fdt f W). split; [apply has_tree; auto|].
  intros t [G Y]. unfold parse_tree. rewrite (unique_tree f t W G Y). reflexivity.
Qed.

(** So a text says one type only. *)
Theorem C55_text_determines_type : forall f g, written f -> written g -> fdt_string f = fdt_string g -> f = g.
Proof.
  intros f g Wf Wg E. destruct (C55_round_trip f Wf) as [[t Ht] Hf], (C55_round_trip g Wg) as [_ Hg].
  pose proof (Hf t Ht) as E1. rewrite E in Ht. rewrite (Hg t Ht) in E1. congruence.
Qed.

(** Not vacuous: a decimal result with a derivation, and nested parameters. *)
Ltac ident := apply identifier_iff; split; reflexivity.
Definition c55_derivation : fdt :=
  FDeriv [("init_scale", DCall "max" [DName "S1"; DName "S2"]);
          ("prec", DIf true (DBin OpGT (DName "init_scale") (DNum 38)) (DNum (-38))
                     (DBin OpPlus (DName "init_scale") (DNum 1)));
          ("other", DNot (DIf false (DBin OpAnd (DName "a") (DName "b")) (DNum 1) (DNot (DName "c"))))]
    (FDecimal 1 0 (IVar "prec") (IConc 2)).
Example c55_derivation_text : fdt_string c55_derivation =
  "init_scale = max(S1, S2)" ++ newline ++ "prec = (init_scale > 38) ? -38 : (init_scale + 1)" ++ newline ++
  "other = !if (a and b) then 1 else !c" ++ newline ++ "decimal?<prec,2>".
Proof. reflexivity. Qed.
Lemma uncap : forall s, lower s = s -> uncapitalised s.
Proof. intros s <-. apply lower_uncapitalised. Qed.
Ltac wr := repeat (cbn [writable written readable fst snd All numeral_or_name]; match goal with
  | |- _ /\ _ => split
  | |- Forall _ _ => constructor
  | |- identifier _ => ident
  | |- uncapitalised _ => apply uncap; reflexivity
  | |- in_int _ _ => unfold in_int; lia
  | |- marked _ _ => split; [lia|reflexivity]
  | |- _ <> _ => discriminate
  | |- True => exact I
  | |- _ = _ => reflexivity
  end).
Example c55_derivation_written : written c55_derivation.
Proof. unfold c55_derivation. wr. Qed.
Example c55_nested : written (FMap 2 0 (FUser 1 0 [UData (FAny "any1" 0 2); UInt (-5); UStr "P"] "point")
  (FFunc 2 [FStruct 1 0 [FPrim PrimI32 2 0; FSingle (SFixed FxVarChar) 1 0 (IVar "L1")]] (FList 2 0 (FAny "any" 0 1)))).
Proof. wr. right. exists "1"%char. split; [cbn; tauto|]. apply same_letters_iff. reflexivity. left. reflexivity. Qed.

(** ** what printing loses *)

Lemma type_text : forall t, gram (GExpr 0) t -> forall x l, yield t = x :: l -> type_tok x = true ->
  exists t1 ss, t = fold_left add_sfx ss (PType t1) /\ gram GType t1 /\ Forall (sfx_ok 0) ss /\ (yield t1 ++ syield ss = x :: l)%list.
Proof.
  intros t G x l Y T. destruct (spine _ _ G) as (h & ss & -> & Hh & Gh & Fs & Yh). rewrite Yh in Y.
  fh; cbn [yield concat_map app] in Y; try (inversion Y; subst x; discriminate T). eauto 10.
Qed.
Lemma sfx_first : forall p ss x l, Forall (sfx_ok p) ss -> syield ss = x :: l -> infix x = true \/ x = TSym "?".
Proof.
  intros p [|s ss] x l F E; [discriminate E|]. destruct (sfx_starts p s ss F []) as (x' & y & l' & E' & Hx & _).
  rewrite app_nil_r, E in E'. inversion E'; subst. tauto.
Qed.

(** Finding: a function type with two parameters prints them without the
    parentheses the grammar wants, and one without parameters prints nothing:
    neither text can be read. *)
Theorem C55_function_text_refuted :
  ~ (exists t, tree_of (fdt_string (FFunc 2 [FPrim PrimI32 2 0; FPrim PrimI64 2 0] (FPrim PrimBool 2 0))) t) /\
  ~ (exists t, tree_of (fdt_string (FFunc 2 [] (FPrim PrimBool 2 0))) t).
Proof.
  split; intros (t & G & Y); vm_compute in Y;
    destruct (type_text _ G _ _ Y eq_refl) as (t1 & ss & -> & Gt & Fs & E); clear G Y;
    tcase t1 Gt E; try (exfalso; inversion E as [[E1 E2]]; subst kw; clear -Gt; cbn in Gt; intuition discriminate);
    destruct Gt as (_ & G1 & _); inversion E as [E2]; clear E; destruct q; cbn [qmark app] in E2; try discriminate E2;
    injection E2 as E2; rewrite <- !app_assoc in E2; cbn [app] in E2;
    pose proof (gram_params _ G1) as Sh; destruct t1_1; try (destruct Sh; fail); cbn [gram yield] in *; try discriminate E2;
    destruct G1 as (_ & G1).
  - destruct (spine _ _ G1) as (h & s1 & -> & Hh & Gh & F1 & Yh). rewrite Yh in E2. clear Yh G1.
    fh; cbn [yield concat_map app] in E2; try discriminate E2.
    tcase t1 Gt1 E2; try (exfalso; inversion E2 as [[E1 E3]]; subst kw; clear -Gt1; cbn in Gt1; intuition discriminate).
    inversion E2 as [[E1 E3]]; subst kw. destruct q; cbn [qmark app] in E3; [discriminate E3|].
    destruct s1 as [|s s1]; [discriminate E3|].
    rewrite <- !app_assoc in E3.
    destruct (sfx_starts 0 s s1 F1 (TSym "->" :: yield t1_2 ++ TSym ">" :: syield ss)%list) as (x & y & l & E4 & Hx & _).
    cbn [app] in E3. rewrite E4 in E3. inversion E3; subst x. destruct Hx as [Hx|[Hx _]]; discriminate Hx.
  - destruct (tree_first _ _ G1) as (x & l & F & Hx). rewrite F in E2. inversion E2; subst x. discriminate Hx.
Qed.

(** Finding: a function parameter that is not a type is dropped without an error. *)
Theorem C55_function_parameter_refuted : exists t,
  tree_of "func<T -> i32>" t /\ parse_tree t = Ok (FFunc 2 [] (FPrim PrimI32 2 0)).
Proof.
  exists (PType (PFunc false (PParam (PName "T" false)) (PType (PScalar "i32" false)))).
  split; [split; [|reflexivity]|reflexivity]. cbn. intuition eauto.
Qed.

(** Finding: conditionals and negations are printed without parentheses, so an
    operand or a nested conditional reads back as another expression. *)
Theorem C55_nested_conditional_refuted :
  (exists x d d' g t, tree_of (fdt_string (FDeriv [(x, d)] g)) t /\ parse_tree t = Ok (FDeriv [(x, d')] g) /\
    d = DIf true (DName "a") (DNum 1) (DIf true (DName "b") (DNum 2) (DNum 3)) /\
    d' = DIf true (DIf true (DName "a") (DNum 1) (DName "b")) (DNum 2) (DNum 3)) /\
  (exists x d d' g t, tree_of (fdt_string (FDeriv [(x, d)] g)) t /\ parse_tree t = Ok (FDeriv [(x, d')] g) /\
    d = DBin OpEQ (DNot (DName "a")) (DName "b") /\ d' = DNot (DBin OpEQ (DName "a") (DName "b"))).
Proof.
  split.
  - exists "x", (DIf true (DName "a") (DNum 1) (DIf true (DName "b") (DNum 2) (DNum 3))),
      (DIf true (DIf true (DName "a") (DNum 1) (DName "b")) (DNum 2) (DNum 3)), (FPrim PrimI32 2 0),
      (PMulti [("x", PTern (PTern (PName "a" false) (PLit "1") (PName "b" false)) (PLit "2") (PLit "3"), 1%nat)] (PScalar "i32" false) 0).
    split; [split; [|reflexivity]|split; [reflexivity|auto]].
    cbn. repeat split; eauto; try discriminate; try (exists 0%nat; split; [reflexivity|lia]); tauto.
  - exists "x", (DBin OpEQ (DNot (DName "a")) (DName "b")), (DNot (DBin OpEQ (DName "a") (DName "b"))), (FPrim PrimI32 2 0),
      (PMulti [("x", PParen (PNot (PBin (TSym "=") (PName "a" false) (PName "b" false))), 1%nat)] (PScalar "i32" false) 0).
    split; [split; [|reflexivity]|split; [reflexivity|auto]].
    cbn. repeat split; eauto; try discriminate; try (exists 2%nat; split; [reflexivity|lia]); tauto.
Qed.

(** * C56: what a text can say *)

(** Reading answers exactly the sane types: required or nullable at every level,
    without variation, with int32 parameters and proper names. *)
Theorem C56_what_is_read : forall text t f, tree_of text t -> parse_tree t = Ok f -> sane f.
Proof.
  intros text t f [G Y] E. unfold parse_tree in E. destruct (visit t) as [[g| | |]| |] eqn:V; try discriminate E. inversion E; subst.
  apply (visit_sane t (GExpr 0) (XType f) G); auto. rewrite Y. apply lex_good.
Qed.

Theorem C56_everything_sane_can_be_written : forall f, sane f -> exists text t, tree_of text t /\ parse_tree t = Ok f.
Proof.
  intros f S. destruct (stree_ok f S) as (G & Y & V & _). exists (spell (yield (stree f))), (stree f). split.
  - split; [apply G|]. symmetry. apply spell_lex. exact Y.
  - unfold parse_tree. rewrite V. reflexivity.
Qed.

Theorem C56_reading_never_panics : forall t, parse_tree t <> Panic.
Proof. intros t. unfold parse_tree. destruct (visit t) as [[]| |]; discriminate. Qed.

(** The printed types are among them. *)
Theorem C56_written_is_sane : forall f, written f -> sane f.
Proof. intros f W. destruct (C55_round_trip f W) as [[t Ht] H]. eapply C56_what_is_read; eauto. Qed.

Example c56_sane : sane (FFunc 2 [FList 1 0 (FDeriv [("x", DIf true (DName "a") (DNum 1) (DIf true (DName "b") (DNum 2) (DNum 3)))] (FAny "any" 0 2));
  FPrim PrimI32 2 0] (FPrim PrimI64 1 0)).
Proof.
  cbn [sane sane_expr All]. repeat (match goal with
    | |- _ /\ _ => split | |- marked _ _ => split; [tauto|reflexivity] | |- identifier _ => ident
    | |- in_int _ _ => unfold in_int; lia | |- True => exact I | |- _ <> _ => discriminate end).
  left; reflexivity.
Qed.

(** Finding: integer parameters are cut to 32 bits without an error. *)
Theorem C56_wide_parameter_refuted : exists t,
  tree_of "varchar<4294967297>" t /\ parse_tree t = Ok (FSingle (SFixed FxVarChar) 2 0 (IConc 1)).
Proof.
  exists (PType (PSingle "varchar" false (PNumLit "4294967297"))). split; [split; [|reflexivity]|reflexivity]. cbn. intuition eauto.
Qed.

(** Finding: a compound interval is accepted by the grammar, but reading it always
    fails, so the text of such a type cannot be read back. *)
Theorem C56_compound_interval_refuted : forall b n v z, (n = 1 \/ n = 2)%Z ->
  (exists t, tree_of (type_string (TIntervalCompound b n v z)) t) /\
  forall t, tree_of (type_string (TIntervalCompound b n v z)) t -> parse_tree t = Err.
Proof.
  intros b n v z Hn.
  assert (lex (type_string (TIntervalCompound b n v z)) =
    (TKw "interval_compound" :: nq n ++ [TSym "<"; TNum (string_of_Z z); TSym ">"])%list) as L.
  { unfold type_string. rewrite lex_word by (try reflexivity; apply nq_brk; brk). rewrite nq_lex by auto.
    rewrite lex_lt by apply number_not_eq. rewrite lex_number by brk. reflexivity. }
  unfold tree_of. rewrite L. split.
  - exists (PType (PSingle "interval_compound" (Z.eqb n 1) (PNumLit (string_of_Z z)))). split; [cbn; intuition eauto|reflexivity].
  - intros t [G Y]. destruct (type_text _ G _ _ Y eq_refl) as (t1 & ss & -> & Gt & Fs & E).
    assert (forall ss t1, visit t1 = Panic -> visit (fold_left add_sfx ss (PType t1)) = Panic \/ exists e, visit (fold_left add_sfx ss (PType t1)) = e /\ forall f, e <> Ok (XType f)) as H.
    { clear. intros ss. induction ss as [|s ss IH] using rev_ind; intros t1 V; [left; exact V|].
      rewrite fold_left_app. cbn [fold_left]. right. eexists. split; [reflexivity|]. intros f E.
      destruct s as [op r|t e]; cbn [add_sfx visit] in E.
      - okb E. okb E. okb E. okb E. okb E. discriminate E.
      - okb E. okb E. okb E. okb E. okb E. okb E. discriminate E. }
    tcase t1 Gt E; try (exfalso; inversion E as [[E1 E2]]; subst kw; clear -Gt; cbn in Gt; intuition discriminate).
    inversion E as [[E1 E2]]; subst kw. unfold parse_tree.
    destruct (H ss (PSingle "interval_compound" q t1) eq_refl) as [V | (e & V & Hv)]; rewrite V; [reflexivity|].
    destruct e as [[f| | |]| |]; try reflexivity. exfalso. eapply Hv; eauto.
Qed.

(** * C57: concrete types *)

(** The type definition a concrete type is printed like. *)
Fixpoint def_of (t : ty) : fdt :=
  match t with
  | TPrim p n _ => FPrim p n 0
  | TFixed k n _ z => FSingle (SFixed k) n 0 (IConc z)
  | TDecimal n _ p s => FDecimal n 0 (IConc p) (IConc s)
  | TPrecTime n _ z => FSingle SPrecTime n 0 (IConc z)
  | TPrecTs n _ z => FSingle SPrecTs n 0 (IConc z)
  | TPrecTsTz n _ z => FSingle SPrecTsTz n 0 (IConc z)
  | TIntervalDay n _ z => FSingle SIntervalDay n 0 (IConc z)
  | TStruct n _ fs => FStruct n 0 (map def_of fs)
  | TFunc n ps r => FFunc n (map def_of ps) (def_of r)
  | TList n _ e => FList n 0 (def_of e)
  | TMap n _ k x => FMap n 0 (def_of k) (def_of x)
  | _ => FAny "any" 0 2
  end.

Lemma map_ok : forall l, Forall (fun t => printable t -> writable (def_of t) /\ fdt_string (def_of t) = type_string t /\ says (def_of t) t) l ->
  All printable l -> All writable (map def_of l) /\ map fdt_string (map def_of l) = map type_string l /\ Forall2 says (map def_of l) l.
Proof.
  intros l H. induction H as [|t l Ht H IH]; cbn [All map]; intros P; [auto|]. destruct P as [Pt P].
  destruct (Ht Pt) as (W & E & S), (IH P) as (Ws & Es & Ss). rewrite E, Es. auto.
Qed.
Lemma def_of_ok : forall t, printable t -> writable (def_of t) /\ fdt_string (def_of t) = type_string t /\ says (def_of t) t.
Proof.
  apply (TypesProofs.ty_ind' (fun t => printable t -> writable (def_of t) /\ fdt_string (def_of t) = type_string t /\ says (def_of t) t) (fun _ => True));
    cbn [printable def_of]; try tauto; try (intros; split; [cbn; unfold marked; intuition auto|split; [reflexivity|constructor]]; fail).
  - intros n v fs H (Hn & Hne & Hf). destruct (map_ok fs H Hf) as (W & E & S). cbn [writable fdt_string type_string]. rewrite E.
    split; [|split; [reflexivity|constructor; auto]]. split; [split; auto|]. split; [destruct fs; [congruence|discriminate]|auto].
  - intros n ps r H Hr (Hn & Hl & Hp & Pr). destruct (map_ok ps H Hp) as (W & E & S), (Hr Pr) as (Wr & Er & Sr).
    cbn [writable fdt_string type_string]. rewrite E, Er. split; [|split; [reflexivity|constructor; auto]].
    split; [split; auto|]. rewrite map_length. auto.
  - intros n v e He (Hn & Pe). destruct (He Pe) as (W & E & S). cbn [writable fdt_string type_string]. rewrite E.
    split; [|split; [reflexivity|constructor; auto]]. split; [split; auto|auto].
  - intros n v k x Hk Hx (Hn & Pk & Px). destruct (Hk Pk) as (Wk & Ek & Sk), (Hx Px) as (Wx & Ex & Sx).
    cbn [writable fdt_string type_string]. rewrite Ek, Ex. split; [|split; [reflexivity|constructor; auto]]. split; [split; auto|auto].
Qed.

(** The text of a printable type is read as the definition that says exactly that type. *)
Theorem C57_reads_back : forall t, printable t ->
  (exists tr, tree_of (type_string t) tr) /\
  forall tr, tree_of (type_string t) tr -> exists f, parse_tree tr = Ok f /\ says f t.
Proof.
  intros t P. destruct (def_of_ok t P) as (W & E & S). rewrite <- E.
  assert (written (def_of t)) as Wr by (destruct (def_of t); auto; destruct W).
  destruct (C55_round_trip _ Wr) as [Hex H]. split; [exact Hex|]. intros tr Htr. exists (def_of t). auto.
Qed.

Lemma says_same : forall f t u, says f t -> says f u -> same_type t u.
Proof.
  assert (forall fs ts us, Forall2 says fs ts -> Forall2 says fs us -> All (fun f => forall t u, says f t -> says f u -> same_type t u) fs -> Forall2 same_type ts us) as HL.
  { intros fs ts us H. revert us. induction H as [|f t fs ts Hf H IH]; intros us H2 HA; inversion H2; subst; constructor; cbn [All] in HA; destruct HA; auto. }
  induction f as [p n v|b n v name l|k n v i|n v p s|name v n|n v e IHe|n v k x IHk IHx|n v fs IHfs
                 |n ps r0 IHps IHr|n v ps name IHps|l f IHf] using fdt_ind2; intros t u Ht Hu;
    inversion Ht; subst; inversion Hu; subst; constructor; eauto.
Qed.

(** Two printable types have the same text exactly when they are the same type,
    variations aside. *)
Theorem C57_same_text : forall t u, printable t -> printable u ->
  (type_string t = type_string u <-> same_type t u).
Proof.
  intros t u Pt Pu. split.
  - intros E. destruct (def_of_ok t Pt) as (Wt & Et & St), (def_of_ok u Pu) as (Wu & Eu & Su).
    assert (def_of t = def_of u) as D.
    { apply C55_text_determines_type; [destruct (def_of t); auto; destruct Wt|destruct (def_of u); auto; destruct Wu|congruence]. }
    rewrite D in St. exact (says_same _ _ _ St Su).
  - clear Pt Pu. revert t u.
    assert (forall l l', Forall2 same_type l l' ->
      Forall (fun t => forall u, same_type t u -> type_string t = type_string u) l -> map type_string l = map type_string l') as HM.
    { intros l l' F. induction F as [|a b l l' Hab F IH]; intros H; [reflexivity|]. inversion H; subst. cbn [map]. f_equal; auto. }
    apply (TypesProofs.ty_ind' (fun t => forall u, same_type t u -> type_string t = type_string u) (fun _ => True)); auto;
      try (intros; match goal with H : same_type _ _ |- _ => inversion H; subst; reflexivity end).
    + intros n v fs H u S. inversion S as [| | | | | | | | |? ? ? ? ? F|]; subst. cbn [type_string]. rewrite (HM _ _ F H). reflexivity.
    + intros n ps r H Hr u S. inversion S as [| | | | | | | | | |? ? ? ? ? F Sr]; subst. cbn [type_string].
      rewrite (Hr _ Sr), (HM _ _ F H). reflexivity.
    + intros n v e He u S. inversion S; subst. cbn [type_string]. rewrite (He e'); auto.
    + intros n v k x Hk Hx u S. inversion S; subst. cbn [type_string]. rewrite (Hk k'), (Hx x'); auto.
Qed.

Example c57_printable : printable (TStruct 1 7 [TDecimal 2 0 38 10; TList 2 0 (TMap 1 0 (TPrim PrimString 2 0) (TFixed FxVarChar 1 3 20))]).
Proof. cbn. unfold in_int. repeat split; try lia; discriminate. Qed.

(** Finding: different types share a text when they are user-defined types, or the
    two kinds of year-month interval, or when a nullability is left unspecified. *)
Theorem C57_shared_text_refuted :
  type_string (TUser 2 0 1 []) = type_string (TUser 1 0 2 [TPint 3]) /\
  type_string (TPrim PrimIntervalYear 2 0) = type_string (TIntervalYearToMonth 2 0) /\
  type_string (TPrim PrimI32 0 0) = type_string (TPrim PrimI32 2 0).
Proof. repeat split. Qed.

(** * C56: the meaning of a text, from the characters up *)

(** The types read from a text are the ones it says by the lexical rules and the
    grammar; a text that says nothing is refused, whatever tree it has. *)
Theorem C56_meaning : forall text f,
  (exists t, tree_of text t /\ parse_tree t = Ok f) <-> text_says text f.
Proof.
  intros text f. unfold text_says, tree_of. split.
  - intros (t & [G Y] & E). exists (lex text). split; [apply tokens_iff; reflexivity|]. apply trees_meant. eauto.
  - intros (l & T & P). apply tokens_iff in T. subst l. apply trees_meant in P as (t & G & Y & E). eauto.
Qed.
Theorem C56_meaningless : forall text t, tree_of text t -> (forall f, ~ text_says text f) -> parse_tree t = Err.
Proof.
  intros text t T N. destruct (parse_tree t) as [f| |] eqn:E; [|reflexivity|exfalso; eapply C56_reading_never_panics; eauto].
  exfalso. apply (N f), C56_meaning. eauto.
Qed.
(** The tokens of a text are determined. *)
Theorem C56_tokens : forall text, exists l, tokens text l /\ forall l', tokens text l' -> l' = l.
Proof. intros text. exists (lex text). split; [apply tokens_lex|]. intros l' H. eapply tokens_once; eauto using tokens_lex. Qed.

Example c56_meaning : text_says "Struct?<VarChar<L1>, list<any1?>, func<(i8, u!p<3>) -> i64>> // done"
  (FStruct 1 0 [FSingle (SFixed FxVarChar) 2 0 (IVar "L1"); FList 2 0 (FAny "any1" 0 1);
                FFunc 2 [FPrim PrimI8 2 0; FUser 2 0 [UInt 3] "p"] (FPrim PrimI64 2 0)]).
Proof.
  apply C56_meaning.
  exists (PType (PStruct true [PType (PSingle "varchar" false (PNumName "L1")); PType (PList false (PType (PAnyVar "any1" true)));
    PType (PFunc false (PParams [PType (PScalar "i8" false); PType (PUser "p" false [PLit "3"])]) (PType (PScalar "i64" false)))])).
  split; [|reflexivity]. split; [|reflexivity]. cbn. repeat (match goal with |- _ /\ _ => split end); eauto; try discriminate; try tauto.
Qed.

(** * C58: letter case and blanks *)

(** Texts that differ only in letter case say the same, names aside. *)
Theorem C58_letter_case : forall text text' f, same_letters text text' -> text_says text f ->
  exists f', text_says text' f' /\ same_def f f'.
Proof.
  intros text text' f S (l & T & P). apply tokens_iff in T. subst l.
  destruct phrases_keep as (_ & K & _). destruct (K _ _ _ P _ (same_tokens _ _ S)) as ([f'|d] & P' & Sf); [|destruct Sf].
  exists f'. split; [|exact Sf]. exists (lex text'). split; [apply tokens_lex|exact P'].
Qed.

(** Blanks between words and symbols can be any blanks, and as many. *)
Theorem C58_blanks : forall before blanks blanks' after f,
  Forall (fun c => c <> "/"%char) (chars before) ->
  blanks <> "" -> Forall (fun c => In c [" "; "009"; "013"]%char) (chars blanks) ->
  blanks' <> "" -> Forall (fun c => In c [" "; "009"; "013"]%char) (chars blanks') ->
  text_says (before ++ blanks ++ after) f <-> text_says (before ++ blanks' ++ after) f.
Proof.
  intros a w w' r f Na N1 B1 N2 B2. apply blanks_iff in B1, B2. unfold text_says.
  assert (lex (a ++ w ++ r) = lex (a ++ w' ++ r)) as E by (rewrite !lex_blanks_app; auto).
  split; intros (l & T & P); exists l; (split; [|exact P]); apply tokens_iff in T; apply tokens_iff; congruence.
Qed.

Example c58_case : same_letters "DECIMAL?<P, 2>" "decimal?<p, 2>" /\ text_says "DECIMAL?<P, 2>" (FDecimal 1 0 (IVar "P") (IConc 2)).
Proof.
  split; [apply same_letters_iff; reflexivity|]. apply C56_meaning. exists (PType (PDecimal true (PNumName "P") (PNumLit "2"))).
  split; [|reflexivity]. split; [|reflexivity]. cbn. eauto 10.
Qed.

(** Finding: a character no rule matches is passed over, so a text with such
    characters is accepted. *)
Theorem C58_stray_characters_refuted : text_says "i32@;" (FPrim PrimI32 2 0) /\ text_says "~list<^i32`>" (FList 2 0 (FPrim PrimI32 2 0)).
Proof.
  split; apply C56_meaning.
  - exists (PType (PScalar "i32" false)). split; [|reflexivity]. split; [|reflexivity]. cbn. eauto 10.
  - exists (PType (PList false (PType (PScalar "i32" false)))). split; [|reflexivity]. split; [|reflexivity]. cbn. intuition eauto.
Qed.

Print Assumptions C55_round_trip.
Print Assumptions C56_what_is_read.
Print Assumptions C56_meaning.
Print Assumptions C57_same_text.
Print Assumptions C58_letter_case.
Print Assumptions C58_blanks.
