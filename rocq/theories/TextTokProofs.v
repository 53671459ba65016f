(** The tokens of printed types and expressions. *)

From Coq Require Import ZArith String Ascii Bool Lia List.
From Verif Require Import Base TypesModel TimeModel SigModel TextModel TextSpec TextLexProofs TextNameProofs.
From Verif Require SigEvalProofs SigMatchProofs.
Import ListNotations.
Local Open Scope list_scope.

Definition op_tok (op : binop) : tok :=
  match op with
  | OpAnd => TKw "and" | OpOr => TKw "or"
  | _ => TSym (binop_string op)
  end.

Fixpoint dtoks (d : dexpr) : list tok :=
  match d with
  | DNum z => [TNum (string_of_Z z)]
  | DName s => [TId s]
  | DBin op l r => TSym "(" :: dtoks l ++ op_tok op :: dtoks r ++ [TSym ")"]
  | DIf true c t e => dtoks c ++ TSym "?" :: dtoks t ++ TSym ":" :: dtoks e
  | DIf false c t e => TKw "if" :: dtoks c ++ TKw "then" :: dtoks t ++ TKw "else" :: dtoks e
  | DNot e => TSym "!" :: dtoks e
  | DCall name args => TId name :: TSym "(" :: sepby dtoks args ++ [TSym ")"]
  end.

Definition itok (i : iparam) : tok :=
  match i with IConc z => TNum (string_of_Z z) | IVar s => TId s end.
Definition nq (n : nullability) : list tok := qmark (Z.eqb n 1).

Fixpoint ftoks (f : fdt) : list tok :=
  match f with
  | FPrim p n _ => TKw (prim_name p) :: nq n
  | FEnum _ _ _ name _ => []
  | FSingle k n _ i => TKw (single_name k) :: nq n ++ TSym "<" :: itok i :: [TSym ">"]
  | FDecimal n _ p s => TKw "decimal" :: nq n ++ TSym "<" :: itok p :: TSym "," :: itok s :: [TSym ">"]
  | FAny name _ n => (if String.eqb name "any" then TKw "any" else TAnyVar name) :: nq n
  | FList n _ e => TKw "list" :: nq n ++ TSym "<" :: ftoks e ++ [TSym ">"]
  | FMap n _ k x => TKw "map" :: nq n ++ TSym "<" :: ftoks k ++ TSym "," :: ftoks x ++ [TSym ">"]
  | FStruct n _ fs => TKw "struct" :: nq n ++ TSym "<" :: sepby ftoks fs ++ [TSym ">"]
  | FFunc n ps r => TKw "func" :: nq n ++ TSym "<" :: sepby ftoks ps ++ TSym "->" :: ftoks r ++ [TSym ">"]
  | FUser n _ ps name =>
      TKw "u!" :: TId name :: nq n ++
        match ps with [] => [] | _ => TSym "<" :: sepby utoks ps ++ [TSym ">"] end
  | FDeriv l g => concat_map (fun a => TId (fst a) :: TSym "=" :: dtoks (snd a) ++ [TNl]) l ++ ftoks g
  end
with utoks (p : udtp) : list tok :=
  match p with
  | UData f => ftoks f
  | UInt z => [TNum (string_of_Z z)]
  | UStr s => [TId s]
  end.

(** ** texts *)

Lemma brk_c : forall c r, is_word_char c = false -> c <> "!"%char -> c <> "="%char -> brk (String c r).
Proof. cbn; auto. Qed.
Ltac brk := first [assumption | cbn [String.append]; apply brk_c; [reflexivity|discriminate|discriminate] | exact I].

Lemma word_not_eq : forall w r, is_word w = true -> first_is (Ascii.eqb "=") (w ++ r)%string = false.
Proof.
  intros [|c w] r H; [discriminate|]. cbn [String.append first_is]. apply Ascii.eqb_neq. intros <-. discriminate H.
Qed.

Lemma join_lex : forall A (str : A -> string) (toks : A -> list tok) (l : list A),
  All (fun x => forall r, brk r -> lex (str x ++ r)%string = toks x ++ lex r) l ->
  forall r, brk r -> lex (join ", " (map str l) ++ r)%string = sepby toks l ++ lex r.
Proof.
  intros A str toks. induction l as [|x l IH]; intros H r Hr; [reflexivity|].
  cbn [All] in H. destruct H as [Hx Hl]. cbn [map join sepby]. destruct l as [|y l].
  - cbn [map]. rewrite Hx, app_nil_r by auto. reflexivity.
  - change (map str (y :: l)) with (str y :: map str l). cbv iota.
    change (str y :: map str l) with (map str (y :: l)).
    rewrite !app_assoc_s. rewrite Hx by brk. rewrite <- app_assoc. f_equal.
    change (", " ++ join ", " (map str (y :: l)) ++ r)%string
      with ("," ++ (" " ++ (join ", " (map str (y :: l)) ++ r)))%string.
    rewrite lex_comma, lex_space, IH; auto.
Qed.

Lemma join_first : forall A (str : A -> string) x l r,
  (forall r, first_is (Ascii.eqb "=") (str x ++ r)%string = false) ->
  first_is (Ascii.eqb "=") (join ", " (map str (x :: l)) ++ r)%string = false.
Proof.
  intros A str x l r H. cbn [map join]. destruct (map str l); [apply H|]. rewrite app_assoc_s. apply H.
Qed.

Lemma op_lex : forall op r, op <> OpUnknown -> lex (binop_string op ++ " " ++ r)%string = op_tok op :: lex r.
Proof.
  intros op r H. rewrite <- (lex_space r). destruct op; try congruence;
    try (cbn [binop_string String.append]; rewrite lex_cons; reflexivity).
Qed.

Lemma dexpr_first : forall d m r, readable m d -> first_is (Ascii.eqb "=") (dexpr_string d ++ r)%string = false.
Proof.
  induction d as [z|s|op l r0 IHl IHr|tern c t e IHc IHt IHe|e IHe|name args IHargs] using SigEvalProofs.dexpr_ind'; intros m r H.
  - apply number_not_eq.
  - cbn in H. apply word_not_eq, identifier_word. auto.
  - reflexivity.
  - destruct tern; cbn [dexpr_string]; [|reflexivity].
    rewrite !app_assoc_s. cbn [readable] in H. destruct H as (_ & Hc & _). eapply IHc; eauto.
  - reflexivity.
  - cbn [dexpr_string]. rewrite !app_assoc_s. cbn [readable] in H. apply word_not_eq, identifier_word. tauto.
Qed.

Lemma dexpr_lex : forall d m r, readable m d -> brk r -> lex (dexpr_string d ++ r)%string = dtoks d ++ lex r.
Proof.
  induction d as [z|s|op l r0 IHl IHr|tern c t e IHc IHt IHe|e IHe|name args IHargs] using SigEvalProofs.dexpr_ind'; intros m r H Hr.
  - apply lex_number; auto.
  - cbn in H. cbn [dexpr_string dtoks]. rewrite lex_word, identifier_tok; auto using identifier_word.
  - cbn [readable] in H. destruct H as (Ho & Hl & Hr0). cbn [dexpr_string dtoks].
    rewrite !app_assoc_s. rewrite lex_open. rewrite (IHl Operand) by (auto; brk).
    rewrite lex_space, op_lex by auto. rewrite (IHr Operand) by (auto; brk). rewrite lex_close.
    repeat (cbn [app]; rewrite <- ?app_assoc). reflexivity.
  - destruct tern; cbn [readable] in H; destruct H as (_ & Hc & Ht & He); cbn [dexpr_string dtoks]; rewrite !app_assoc_s.
    + rewrite (IHc Last) by (auto; brk).
      change (" ? " ++ dexpr_string t ++ " : " ++ dexpr_string e ++ r)%string
        with (" " ++ ("?" ++ (" " ++ (dexpr_string t ++ (" " ++ (":" ++ (" " ++ (dexpr_string e ++ r))))))))%string.
      rewrite lex_space, lex_qmark, lex_space, (IHt Alone) by (auto; brk).
      rewrite lex_space, lex_colon, (IHe Last) by auto.
      repeat (cbn [app]; rewrite <- ?app_assoc). reflexivity.
    + change ("if " ++ dexpr_string c ++ " then " ++ dexpr_string t ++ " else " ++ dexpr_string e ++ r)%string
        with ("if" ++ (" " ++ (dexpr_string c ++ (" " ++ ("then" ++ (" " ++ (dexpr_string t ++ (" " ++ ("else" ++ (" " ++ (dexpr_string e ++ r)))))))))))%string.
      rewrite lex_word by (try reflexivity; brk). rewrite lex_space, (IHc Alone) by (auto; brk).
      rewrite lex_space, lex_word by (try reflexivity; brk). rewrite lex_space, (IHt Alone) by (auto; brk).
      rewrite lex_space, lex_word by (try reflexivity; brk). rewrite lex_space, (IHe Last) by auto.
      repeat (cbn [app]; rewrite <- ?app_assoc). reflexivity.
  - cbn [readable] in H. destruct H as [_ H]. cbn [dexpr_string dtoks]. rewrite !app_assoc_s.
    rewrite lex_bang by (eapply dexpr_first; eauto). rewrite (IHe Last) by auto. reflexivity.
  - cbn [readable] in H. destruct H as (Hn & _ & Hargs). cbn [dexpr_string dtoks]. rewrite !app_assoc_s.
    rewrite lex_word by (auto using identifier_word; brk). rewrite identifier_tok by auto. rewrite lex_open.
    rewrite (join_lex _ dexpr_string dtoks).
    + rewrite lex_close. repeat (cbn [app]; rewrite <- ?app_assoc). reflexivity.
    + clear -IHargs Hargs. induction args as [|x args IH]; cbn in *; [auto|].
      inversion IHargs; subst. destruct Hargs. split; [intros r Hr; eauto|auto].
    + brk.
Qed.

Lemma nq_lex : forall n r, (n = 1 \/ n = 2)%Z -> lex (str_nullable n ++ r)%string = nq n ++ lex r.
Proof. intros n r [-> | ->]; unfold str_nullable, nq; cbn; [apply lex_qmark|reflexivity]. Qed.
Lemma nq_brk : forall n r, brk r -> brk (str_nullable n ++ r)%string.
Proof. intros n r H. unfold str_nullable. destruct (Z.eqb n NullNullable); [brk|exact H]. Qed.

Lemma itok_lex : forall i r, numeral_or_name i -> brk r -> lex (iparam_string i ++ r)%string = itok i :: lex r.
Proof.
  intros [z|s] r H Hr; cbn [iparam_string itok]; [apply lex_number; auto|].
  rewrite lex_word, identifier_tok; auto using identifier_word.
Qed.
Lemma itok_first : forall i r, numeral_or_name i -> first_is (Ascii.eqb "=") (iparam_string i ++ r)%string = false.
Proof. intros [z|s] r H; cbn [iparam_string]; [apply number_not_eq|apply word_not_eq, identifier_word; auto]. Qed.

Lemma prim_word : forall p, is_word (prim_name p) = true /\ word (prim_name p) = TKw (prim_name p).
Proof. destruct p; split; reflexivity. Qed.
Lemma single_word : forall k, is_word (single_name k) = true /\ word (single_name k) = TKw (single_name k).
Proof. destruct k as [[]| | | |]; split; reflexivity. Qed.
Lemma any_word : forall name, name = "any"%string \/ any_variable name ->
  is_word name = true /\ word name = (if String.eqb name "any" then TKw "any" else TAnyVar name).
Proof.
  intros name [-> | H]; [split; reflexivity|]. destruct (any_variable_word _ H) as [H1 H2]. split; [auto|].
  rewrite H2. destruct (String.eqb_spec name "any"); [|reflexivity]. subst. discriminate H2.
Qed.

Lemma fdt_first : forall f r, writable f -> first_is (Ascii.eqb "=") (fdt_string f ++ r)%string = false.
Proof.
  intros f r H. destruct f; cbn [fdt_string writable] in *; rewrite ?app_assoc_s; try reflexivity; try tauto.
  - apply word_not_eq, prim_word.
  - apply word_not_eq, single_word.
  - apply word_not_eq. apply any_word. tauto.
Qed.

Definition uholds (P : fdt -> Prop) (p : udtp) : Prop := match p with UData f => P f | _ => True end.

Section FdtInd.
  Variable P : fdt -> Prop.
  Hypothesis Hprim : forall p n v, P (FPrim p n v).
  Hypothesis Henum : forall b n v name l, P (FEnum b n v name l).
  Hypothesis Hsingle : forall k n v i, P (FSingle k n v i).
  Hypothesis Hdecimal : forall n v p s, P (FDecimal n v p s).
  Hypothesis Hany : forall name v n, P (FAny name v n).
  Hypothesis Hlist : forall n v e, P e -> P (FList n v e).
  Hypothesis Hmap : forall n v k x, P k -> P x -> P (FMap n v k x).
  Hypothesis Hstruct : forall n v fs, All P fs -> P (FStruct n v fs).
  Hypothesis Hfunc : forall n ps r, All P ps -> P r -> P (FFunc n ps r).
  Hypothesis Huser : forall n v ps name,
    All (uholds P) ps -> P (FUser n v ps name).
  Hypothesis Hderiv : forall l f, P f -> P (FDeriv l f).
  Fixpoint fdt_ind2 (f : fdt) : P f :=
    match f with
    | FPrim p n v => Hprim p n v
    | FEnum b n v name l => Henum b n v name l
    | FSingle k n v i => Hsingle k n v i
    | FDecimal n v p s => Hdecimal n v p s
    | FAny name v n => Hany name v n
    | FList n v e => Hlist n v e (fdt_ind2 e)
    | FMap n v k x => Hmap n v k x (fdt_ind2 k) (fdt_ind2 x)
    | FStruct n v fs =>
        Hstruct n v fs ((fix go (l : list fdt) : All P l :=
          match l with [] => I | x :: l' => conj (fdt_ind2 x) (go l') end) fs)
    | FFunc n ps r =>
        Hfunc n ps r ((fix go (l : list fdt) : All P l :=
          match l with [] => I | x :: l' => conj (fdt_ind2 x) (go l') end) ps) (fdt_ind2 r)
    | FUser n v ps name =>
        Huser n v ps name ((fix go (l : list udtp) : All (uholds P) l :=
          match l as l0 return All (uholds P) l0 with
          | [] => I
          | x :: l' => conj (match x as x0 return uholds P x0 with UData f => fdt_ind2 f | UInt _ => I | UStr _ => I end) (go l')
          end) ps)
    | FDeriv l f => Hderiv l f (fdt_ind2 f)
    end.
End FdtInd.

Lemma All_mp : forall A (P Q : A -> Prop) l, All P l -> All (fun x => P x -> Q x) l -> All Q l.
Proof. induction l; cbn; intuition auto. Qed.

Lemma utok_first : forall p r, match p with UData f => writable f | UInt z => in_int 32 z | UStr s => identifier s end ->
  first_is (Ascii.eqb "=") (udtp_string p ++ r)%string = false.
Proof.
  intros [f|z|s] r H; cbn [udtp_string].
  - apply fdt_first; auto.
  - apply number_not_eq.
  - apply word_not_eq, identifier_word; auto.
Qed.

Lemma fdt_lex : forall f, writable f -> forall r, brk r -> lex (fdt_string f ++ r)%string = ftoks f ++ lex r.
Proof.
  induction f as [p n v|b n v name l|k n v i|n v p s|name v n|n v e IHe|n v k x IHk IHx|n v fs IHfs
                 |n ps r0 IHps IHr|n v ps name IHps|l f IHf] using fdt_ind2;
    cbn [writable]; intros H r Hr; try tauto; cbn [fdt_string ftoks]; rewrite ?app_assoc_s.
  - destruct H as [Hn _]. destruct (prim_word p) as [Hw Ht].
    rewrite lex_word, Ht, nq_lex by (auto using nq_brk). reflexivity.
  - destruct H as [[Hn _] Hi]. destruct (single_word k) as [Hw Ht].
    rewrite lex_word, Ht, nq_lex by (auto; apply nq_brk; brk). rewrite lex_lt by (apply itok_first; auto).
    rewrite itok_lex, lex_gt by (auto using brk_eq; brk). repeat (cbn [app]; rewrite <- ?app_assoc). reflexivity.
  - destruct H as ((Hn & _) & Hp & Hs). rewrite lex_word, nq_lex by (try reflexivity; auto; apply nq_brk; brk).
    rewrite lex_lt by (apply itok_first; auto). rewrite itok_lex, lex_comma, itok_lex, lex_gt by (auto using brk_eq; brk).
    repeat (cbn [app]; rewrite <- ?app_assoc). reflexivity.
  - destruct H as ((Hn & _) & Hname). destruct (any_word name Hname) as [Hw Ht].
    rewrite lex_word, Ht, nq_lex by (auto using nq_brk). reflexivity.
  - destruct H as ((Hn & _) & He). rewrite lex_word, nq_lex by (try reflexivity; auto; apply nq_brk; brk).
    rewrite lex_lt by (apply fdt_first; auto). rewrite IHe, lex_gt by (auto using brk_eq; brk).
    repeat (cbn [app]; rewrite <- ?app_assoc). reflexivity.
  - destruct H as ((Hn & _) & Hk & Hx). rewrite lex_word, nq_lex by (try reflexivity; auto; apply nq_brk; brk).
    rewrite lex_lt by (apply fdt_first; auto). rewrite IHk by (auto; brk).
    change (", " ++ fdt_string x ++ ">" ++ r)%string with ("," ++ (" " ++ (fdt_string x ++ (">" ++ r))))%string.
    rewrite lex_comma, lex_space, IHx, lex_gt by (auto using brk_eq; brk).
    repeat (cbn [app]; rewrite <- ?app_assoc). reflexivity.
  - destruct H as ((Hn & _) & Hne & Hfs). rewrite lex_word, nq_lex by (try reflexivity; auto; apply nq_brk; brk).
    rewrite lex_lt.
    + rewrite (join_lex _ fdt_string ftoks); [|eapply All_mp; eauto|brk]. rewrite lex_gt by (auto using brk_eq).
      repeat (cbn [app]; rewrite <- ?app_assoc). reflexivity.
    + destruct fs as [|x fs]; [congruence|]. apply join_first. cbn in Hfs. intros; apply fdt_first; tauto.
  - destruct H as ((Hn & _) & Hlen & Hps & Hret). rewrite lex_word, nq_lex by (try reflexivity; auto; apply nq_brk; brk).
    rewrite lex_lt.
    + rewrite (join_lex _ fdt_string ftoks); [|eapply All_mp; eauto|brk].
      change (" -> " ++ fdt_string r0 ++ ">" ++ r)%string with (" " ++ ("->" ++ (" " ++ (fdt_string r0 ++ (">" ++ r)))))%string.
      rewrite lex_space, lex_arrow, lex_space, IHr, lex_gt by (auto using brk_eq; brk).
      repeat (cbn [app]; rewrite <- ?app_assoc). reflexivity.
    + destruct ps as [|x ps]; [discriminate|]. apply join_first. cbn in Hps. intros; apply fdt_first; tauto.
  - destruct H as ((Hn & _) & Hname & Hps). rewrite lex_user.
    destruct ps as [|p ps].
    + change ("" ++ r)%string with r.
      rewrite lex_word, identifier_tok, nq_lex by (auto using identifier_word, nq_brk). rewrite app_nil_r. reflexivity.
    + rewrite !app_assoc_s. rewrite lex_word, identifier_tok, nq_lex by (auto using identifier_word; apply nq_brk; brk).
      rewrite lex_lt.
      * rewrite (join_lex _ udtp_string utoks); [|  |brk].
        -- rewrite lex_gt by (auto using brk_eq). repeat (cbn [app]; rewrite <- ?app_assoc). reflexivity.
        -- revert Hps IHps. generalize (p :: ps). induction l as [|q l IH]; cbn [All]; [auto|].
           intros [Hq Hl] [Iq Il]. split; [|auto]. intros r' Hr'. destruct q as [f|z|s]; cbn [udtp_string utoks].
           ++ cbn in Iq. apply Iq; auto.
           ++ apply lex_number; auto.
           ++ rewrite lex_word, identifier_tok; auto using identifier_word.
      * apply join_first. cbn [All] in Hps. intros; apply utok_first; tauto.
Qed.

Lemma lex_fdt : forall f, written f -> lex (fdt_string f) = ftoks f.
Proof.
  intros f H. assert (writable f -> lex (fdt_string f) = ftoks f) as W.
  { intros Hw. rewrite <- (app_empty_r (fdt_string f)), fdt_lex, lex_nil, app_nil_r by (auto; exact I). reflexivity. }
  destruct f as [| | | | | | | | | |l g]; try (apply W; exact H). clear W.
  destruct H as (_ & Hl & Hg). cbn [fdt_string ftoks].
  induction Hl as [|[x d] l [Hx Hd] Hl IH]; cbn [map concat_map].
  - change (String.concat "" [] ++ fdt_string g)%string with (fdt_string g). cbn [app]. rewrite <- (app_empty_r (fdt_string g)), fdt_lex, lex_nil, app_nil_r by (auto; exact I). reflexivity.
  - assert (forall a l, String.concat "" (a :: l) = a ++ String.concat "" l)%string as E.
    { intros a [|b l']; cbn [String.concat]; [rewrite app_empty_r|]; reflexivity. }
    rewrite E. rewrite app_assoc_s. unfold assignment_string at 1. cbn [fst snd] in *. rewrite !app_assoc_s.
    rewrite lex_word, identifier_tok by (auto using identifier_word; brk).
    match goal with |- context[(" = " ++ ?X)%string] => change (" = " ++ X)%string with (" " ++ ("= " ++ X))%string end.
    rewrite lex_space.
    assert (forall s, lex ("= " ++ s)%string = TSym "=" :: lex s) as El.
    { intros s. rewrite <- (lex_space s). cbn [String.append]. rewrite lex_cons. reflexivity. }
    rewrite El, (dexpr_lex d Alone) by (auto; unfold newline; brk). rewrite lex_newline, IH.
    repeat (cbn [app]; rewrite <- ?app_assoc). reflexivity.
Qed.
