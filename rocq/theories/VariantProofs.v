(** Proofs for C76. *)

From Coq Require Import ZArith String Ascii Bool Lia List.
From Verif Require Import Base FMap ExtSetModel TypesModel LoadModel LoadSpec LoadProofs SigModel DeclModel ExprModel
  ExprSpec ExprWireProofs VariantModel VariantSpec.
Import ListNotations.
Local Open Scope string_scope.
Local Open Scope Z_scope.

Section Making.
Variable parse : string -> option fdt.

Lemma parse_args_ok : forall name ws l,
  parse_args parse name ws = Ok l <->
  exists ts, map parse ws = map Some ts /\ l = map (fun t => (name, PValue t)) ts.
Proof.
  intros name. induction ws as [|w ws IH]; intros l; cbn [parse_args map].
  - split.
    + intros H. injection H as <-. exists []. auto.
    + intros (ts & H & ->). destruct ts; [reflexivity|discriminate].
  - destruct (parse w) as [f|] eqn:E.
    + destruct (parse_args parse name ws) as [l'| |] eqn:EL; cbn [bind]; split.
      * intros H. injection H as <-. destruct (proj1 (IH l') eq_refl) as (ts & Ht & ->).
        exists (f :: ts). cbn. rewrite Ht. auto.
      * intros (ts & H & ->). destruct ts as [|t ts]; [discriminate|]. cbn in H. injection H as <- H.
        pose proof (proj2 (IH _) (ex_intro _ ts (conj H eq_refl))) as E2. injection E2 as ->. reflexivity.
      * discriminate.
      * intros (ts & H & ->). destruct ts as [|t ts]; [discriminate|]. cbn in H. injection H as <- H.
        pose proof (proj2 (IH _) (ex_intro _ ts (conj H eq_refl))). discriminate.
      * discriminate.
      * intros (ts & H & ->). destruct ts as [|t ts]; [discriminate|]. cbn in H. injection H as <- H.
        pose proof (proj2 (IH _) (ex_intro _ ts (conj H eq_refl))). discriminate.
    + split; [discriminate|]. intros (ts & H & _). destruct ts; discriminate.
Qed.

Lemma parse_args_not_err : forall name ws, parse_args parse name ws <> Err.
Proof.
  intros name. induction ws as [|w ws IH]; cbn [parse_args]; [discriminate|].
  destruct (parse w); [|discriminate]. destruct (parse_args parse name ws); cbn [bind]; congruence.
Qed.

Lemma parse_args_panic : forall name ws, parse_args parse name ws = Panic <-> exists w, In w ws /\ parse w = None.
Proof.
  intros name. induction ws as [|w ws IH]; cbn [parse_args].
  - split; [discriminate|intros (? & [] & _)].
  - destruct (parse w) as [f|] eqn:E.
    + pose proof (parse_args_not_err name ws) as HN.
      destruct (parse_args parse name ws) as [l| |]; cbn [bind]; [|contradiction|].
      * split; [discriminate|]. intros (x & [<-|Hx] & Hp); [congruence|].
        assert (Ok l = Panic) by (apply IH; eauto). discriminate.
      * split; [|reflexivity]. intros _. destruct (proj1 IH eq_refl) as (x & Hx & Hp). exists x. split; [right|]; auto.
    + split; [|reflexivity]. intros _. exists w. split; [left|]; auto.
Qed.

(** how a name is taken apart *)
Lemma name_parts_cut : forall c name words, name_parts c name words <->
  let '(n, rest) := match cut_colon c with Some p => p | None => (c, EmptyString) end in
  n = name /\ words = (match rest with EmptyString => [] | _ => split_us rest end).
Proof.
  intros c name words. split.
  - intros H. inversion H as [n HN E1 E2|n HN E1 E2|n text ws HN HT HS E1 E2]; subst.
    + apply cut_colon_none in HN. rewrite HN. auto.
    + replace (name ++ ":")%string with (name ++ ":" ++ "")%string by reflexivity.
      rewrite cut_colon_app by auto. auto.
    + rewrite cut_colon_app by auto. apply spells_split in HS. destruct text; [contradiction|]. auto.
  - destruct (cut_colon c) as [[n rest]|] eqn:C.
    + apply cut_colon_some in C. destruct C as [-> HN]. intros [<- ->]. destruct rest as [|ch rest].
      * apply NP_empty; auto.
      * apply NP_args; auto; [discriminate|]. apply spells_split. reflexivity.
    + intros [<- ->]. apply NP_bare. apply cut_colon_none; auto.
Qed.

Lemma parse_name_ok : forall c name args,
  parse_func_name parse c = Ok (name, args) <->
  exists ts, says parse c name ts /\ args = map (fun t => (name, PValue t)) ts.
Proof.
  intros c name args. unfold parse_func_name, says.
  assert (HN : forall ts, (exists words, name_parts c name words /\ map parse words = map Some ts) <->
    let '(n, rest) := match cut_colon c with Some p => p | None => (c, EmptyString) end in
    n = name /\ map parse (match rest with EmptyString => [] | _ => split_us rest end) = map Some ts).
  { intros ts. split.
    - intros (words & HP & HM). apply name_parts_cut in HP. destruct (match cut_colon c with Some p => p | None => _ end) as [n rest].
      destruct HP as [-> ->]. auto.
    - destruct (match cut_colon c with Some p => p | None => _ end) as [n rest] eqn:EC. intros [-> H].
      exists (match rest with EmptyString => [] | _ => split_us rest end). split; [|exact H].
      apply name_parts_cut. rewrite EC. auto. }
  setoid_rewrite HN. destruct (match cut_colon c with Some p => p | None => _ end) as [n rest].
  destruct rest as [|ch rest].
  - split.
    + intros H. injection H as -> <-. exists []. auto.
    + intros (ts & [-> H] & ->). destruct ts; [reflexivity|discriminate].
  - destruct (parse_args parse n (split_us (String ch rest))) as [l| |] eqn:E; cbn [bind].
    + split.
      * intros H. injection H as -> <-. apply parse_args_ok in E. destruct E as (ts & Hm & ->). exists ts. auto.
      * intros (ts & [-> H] & ->). assert (E2 : parse_args parse name (split_us (String ch rest)) = Ok (map (fun t => (name, PValue t)) ts))
          by (apply parse_args_ok; eauto). congruence.
    + exfalso. apply (parse_args_not_err _ _ E).
    + split; [discriminate|]. intros (ts & [-> H] & ->).
      assert (E2 : parse_args parse name (split_us (String ch rest)) = Ok (map (fun t => (name, PValue t)) ts))
          by (apply parse_args_ok; eauto). congruence.
Qed.

Lemma parse_name_not_err : forall c, parse_func_name parse c <> Err.
Proof.
  intros c. unfold parse_func_name. destruct (match cut_colon c with Some p => p | None => _ end) as [n rest].
  destruct rest; [discriminate|]. pose proof (parse_args_not_err n (split_us (String a rest))).
  destruct (parse_args _ _ _); cbn [bind]; congruence.
Qed.

Lemma parse_name_panic : forall c, parse_func_name parse c = Panic <-> misspelt parse c.
Proof.
  intros c. unfold parse_func_name, misspelt.
  assert (HN : (exists name words w, name_parts c name words /\ In w words /\ parse w = None) <->
    let '(n, rest) := match cut_colon c with Some p => p | None => (c, EmptyString) end in
    exists w, In w (match rest with EmptyString => [] | _ => split_us rest end) /\ parse w = None).
  { split.
    - intros (name & words & w & HP & HI & HW). apply name_parts_cut in HP.
      destruct (match cut_colon c with Some p => p | None => _ end) as [n rest]. destruct HP as [-> ->]. eauto.
    - destruct (match cut_colon c with Some p => p | None => _ end) as [n rest] eqn:EC. intros (w & HI & HW).
      exists n, (match rest with EmptyString => [] | _ => split_us rest end), w. split; [|auto].
      apply name_parts_cut. rewrite EC. auto. }
  rewrite HN. destruct (match cut_colon c with Some p => p | None => _ end) as [n rest].
  destruct rest as [|ch rest].
  - split; [discriminate|intros (? & [] & _)].
  - rewrite <- parse_args_panic with (name := n).
    destruct (parse_args parse n (split_us (String ch rest))); cbn [bind]; split; congruence.
Qed.

Lemma inter_ok : forall d i r,
  intermediate_type parse (if String.eqb d "" then "NONE" else d)%string i = Ok r <-> state_type parse d i r.
Proof.
  intros d i r. unfold intermediate_type. destruct (String.eqb_spec d "") as [->|Hd].
  - cbn [String.eqb]. change (String.eqb "NONE" "NONE") with true. cbv iota. split.
    + intros H. injection H as <-. constructor; auto.
    + intros H. inversion H; subst; [reflexivity|contradiction].
  - destruct (String.eqb_spec d "NONE") as [->|HN].
    + split.
      * intros H. injection H as <-. constructor; auto.
      * intros H. inversion H; subst; [reflexivity|contradiction].
    + destruct (String.eqb_spec i "") as [->|Hi].
      * split; [discriminate|]. intros H. inversion H as [[H1|H1]|]; subst; contradiction.
      * destruct (parse i) as [f|] eqn:E.
        -- split.
           ++ intros H. injection H as <-. constructor; auto.
           ++ intros H. inversion H as [[H1|H1]|]; subst; [contradiction|contradiction|congruence].
        -- split; [discriminate|]. intros H. inversion H as [[H1|H1]|]; subst; [contradiction|contradiction|congruence].
Qed.

Lemma inter_not_err : forall d i, intermediate_type parse d i <> Err.
Proof.
  intros d i. unfold intermediate_type. destruct (String.eqb d "NONE"); [discriminate|].
  destruct (String.eqb i ""); [discriminate|]. destruct (parse i); discriminate.
Qed.

Lemma inter_panic : forall d i,
  intermediate_type parse (if String.eqb d "" then "NONE" else d)%string i = Panic <-> no_state_type parse d i.
Proof.
  intros d i. unfold intermediate_type, no_state_type. destruct (String.eqb_spec d "") as [->|Hd].
  - change (String.eqb "NONE" "NONE") with true. cbv iota. split; [discriminate|]. intros (H & _). contradiction.
  - destruct (String.eqb_spec d "NONE") as [->|HN].
    + split; [discriminate|]. intros (_ & H & _). contradiction.
    + destruct (String.eqb_spec i "") as [->|Hi].
      * split; auto.
      * destruct (parse i) as [f|] eqn:E.
        -- split; [discriminate|]. intros (_ & _ & [H|H]); [contradiction|discriminate].
        -- split; auto.
Qed.

End Making.

Lemma signed64_spec : forall z, 0 <= z < 2 ^ 64 -> int_of_uint z = signed64 z.
Proof.
  intros z H. unfold int_of_uint, signed64. destruct (Z.ltb_spec z (2 ^ 63)).
  - rewrite Z.mod_small by lia. lia.
  - replace (z + 2 ^ 63) with ((z - 2 ^ 63) + 1 * 2 ^ 64) by lia. rewrite Z.mod_add by lia.
    rewrite Z.mod_small by lia. lia.
Qed.

Lemma or_else_spec : forall d s, or_else d s (if String.eqb s "" then d else s)%string.
Proof. intros d s. destruct (String.eqb_spec s ""); [left|right]; auto. Qed.
Lemma or_else_fun : forall d s r, or_else d s r -> r = (if String.eqb s "" then d else s)%string.
Proof. intros d s r [[-> ->]|[H ->]]; [reflexivity|]. destruct (String.eqb_spec s ""); congruence. Qed.

(** ** matching *)

Lemma values_defs : forall (name : string) ts,
  func_defs (map snd (map (fun t => (name, PValue t)) ts)) = Ok ts.
Proof. intros name. induction ts as [|t ts IH]; [reflexivity|]. cbn [map snd func_defs]. rewrite IH. reflexivity. Qed.

Lemma declared_in_range : forall fs pos, (pos < List.length fs)%nat -> exists f, declared_at fs pos = Ok f.
Proof.
  intros fs pos H. unfold declared_at. destruct (nth_error fs pos) eqn:E; [eauto|].
  apply nth_error_None in E. lia.
Qed.

Lemma no_rule_at : forall a pos fs vb, match_argument_at a pos NHNone fs vb <> Ok true.
Proof.
  intros a pos fs vb. unfold match_argument_at.
  destruct (match vb with None => _ | Some v => _ end); [discriminate|].
  destruct (declared_at fs pos); cbn [bind]; discriminate.
Qed.

Lemma no_rule_each : forall a l pos fs vb, match_each (a :: l) pos NHNone fs vb <> Ok true.
Proof.
  intros a l pos fs vb. cbn [match_each]. pose proof (no_rule_at a pos fs vb) as H.
  destruct (match_argument_at a pos NHNone fs vb) as [[|]| |]; cbn [bind]; congruence.
Qed.

Lemma no_rule_match : forall params vb ts, match_arguments NHNone params vb ts = Ok true -> ts = [].
Proof.
  intros params vb [|a l]; [auto|]. intros H. exfalso. unfold match_arguments in H.
  destruct (match vb with None => _ | Some v => _ end) as [[|]| |]; cbn [bind negb] in H; try discriminate.
  destruct (func_defs params) as [fs| |]; try discriminate.
  pose proof (no_rule_each a l 0%nat fs vb) as HN.
  destruct (match_each (a :: l) 0 NHNone fs vb) as [[|]| |]; cbn [bind negb] in H; congruence.
Qed.

(** ** names *)

Definition us (c : ascii) : nat := if Ascii.eqb c "_" then 1%nat else 0%nat.
Fixpoint count_us (s : string) : nat :=
  match s with EmptyString => 0 | String c s' => us c + count_us s' end.

Lemma count_app : forall a b, count_us (a ++ b)%string = (count_us a + count_us b)%nat.
Proof. induction a; intros b; cbn; [reflexivity|]. rewrite IHa. lia. Qed.

Lemma count_concat : forall l, l <> [] ->
  (count_us (String.concat "_" l) + 1 = fold_right (fun s n => count_us s + n) 0 l + List.length l)%nat.
Proof.
  induction l as [|x l IH]; intros H; [contradiction|]. destruct l as [|y l].
  - cbn. lia.
  - rewrite concat_cons by discriminate. rewrite !count_app. cbn [fold_right List.length].
    specialize (IH ltac:(discriminate)). cbn [fold_right List.length] in IH.
    change (count_us "_") with 1%nat. lia.
Qed.

Lemma count_none : forall s, count_us s = 0%nat <-> no_char "_" s.
Proof.
  induction s as [|c s IH]; cbn.
  - split; auto. intros _ [].
  - unfold us. unfold no_char in *. cbn [chars]. destruct (Ascii.eqb_spec c "_"%char) as [->|Hc].
    + split; [lia|]. intros H. exfalso. apply H. left; reflexivity.
    + cbn. rewrite IH. split; intros H; [intros [E|E]; [congruence|auto]|]. intros Hi. apply H. right; auto.
Qed.

Lemma count_zero : forall l, fold_right (fun s n => count_us s + n)%nat 0%nat l = 0%nat <-> Forall (no_char "_") l.
Proof.
  induction l as [|x l IH]; cbn; [split; auto|]. split.
  - intros H. constructor; [apply count_none; lia|apply IH; lia].
  - intros H. inversion H as [|? ? H1 H2]; subst. apply count_none in H1. apply IH in H2. lia.
Qed.

(** as many texts joined give the same text as the words only if they are the words *)
Lemma concat_words : forall ws xs, Forall (no_char "_") ws -> List.length xs = List.length ws ->
  String.concat "_" xs = String.concat "_" ws -> xs = ws.
Proof.
  intros ws xs HW HL HC. destruct ws as [|w ws].
  - destruct xs; [reflexivity|discriminate].
  - assert (HX : Forall (no_char "_") xs).
    { apply count_zero. assert (xs <> []) as Hx by (destruct xs; discriminate).
      pose proof (count_concat xs Hx) as H1. pose proof (count_concat (w :: ws) ltac:(discriminate)) as H2.
      apply count_zero in HW. rewrite HC in H1. lia. }
    assert (E1 : xs = split_us (String.concat "_" (w :: ws))).
    { apply spells_split. split; [destruct xs; discriminate|]. auto. }
    assert (E2 : w :: ws = split_us (String.concat "_" (w :: ws))).
    { apply spells_split. split; [discriminate|]. auto. }
    congruence.
Qed.

Lemma app_inv_l : forall a b c : string, (a ++ b = a ++ c)%string -> b = c.
Proof. induction a; cbn; intros b c H; [auto|]. injection H as H. auto. Qed.

Lemma app_longer : forall a b : string, (a = a ++ b)%string -> b = ""%string.
Proof. intros a b H. induction a as [|ch a IH]; cbn in H; [auto|]. injection H as H. auto. Qed.

Lemma in_chars_colon : forall a b : string, In ":"%char (chars (a ++ String ":" b)%string).
Proof. induction a; intros b; cbn; auto. Qed.
