(** Unique readability of types: no angle bracket of a printed type can be read
    as an operator, and its only tree visits to it. *)

From Coq Require Import ZArith String Ascii Bool Lia List.
From Verif Require Import Base TypesModel TimeModel SigModel TextModel TextSpec TextLexProofs TextNameProofs
  TextTokProofs TextTreeProofs.
From Verif Require SigEvalProofs DecimalProofs.
Import ListNotations.
Local Open Scope list_scope.

(** ** angle brackets used as operators *)

Definition is_tok (a b : tok) : bool :=
  match a, b with
  | TSym x, TSym y => String.eqb x y
  | _, _ => false
  end.
Definition b2n (b : bool) : nat := if b then 1 else 0.

(** How often the operator [s] occurs in a tree. *)
Fixpoint uses (s : tok) (t : tree) : nat :=
  match t with
  | PScalar _ _ | PAny _ | PAnyVar _ _ | PNumLit _ | PNumName _ | PLit _ | PName _ _ => 0
  | PSingle _ _ p => uses s p
  | PDecimal _ a b | PMap _ a b | PFunc _ a b => uses s a + uses s b
  | PStruct _ fs | PUser _ _ fs | PParams fs | PCall _ fs => list_sum (map (uses s) fs)
  | PNStruct _ fs => list_sum (map (fun f => let (_, e) := f : string * tree in uses s e) fs)
  | PList _ e | PNumExpr e | PParam e | PParen e | PType e | PNot e => uses s e
  | PMulti defs f _ =>
      list_sum (map (fun d => match d : string * tree * nat with (_, e, _) => uses s e end) defs) + uses s f
  | PIf a b c | PTern a b c => uses s a + uses s b + uses s c
  | PBin op l r => b2n (is_tok s op) + uses s l + uses s r
  end.

Fixpoint count (s : tok) (l : list tok) : nat :=
  match l with [] => 0 | x :: l' => b2n (is_tok s x) + count s l' end.
Lemma count_app : forall s a b, count s (a ++ b) = (count s a + count s b)%nat.
Proof. induction a; intros b; cbn; [reflexivity|]. rewrite IHa. lia. Qed.
Lemma count_q : forall q, count (TSym "<") (qmark q) = 0%nat /\ count (TSym ">") (qmark q) = 0%nat.
Proof. destruct q; split; reflexivity. Qed.
Lemma count_nl : forall s n, count s (repeat TNl n) = 0%nat.
Proof. intros s n. induction n; cbn; [reflexivity|]. destruct s; auto. Qed.

(** Induction over trees. *)
Definition subs (P : tree -> Prop) (t : tree) : Prop :=
  match t with
  | PScalar _ _ | PAny _ | PAnyVar _ _ | PNumLit _ | PNumName _ | PLit _ | PName _ _ => True
  | PSingle _ _ a | PList _ a | PNumExpr a | PParam a | PParen a | PType a | PNot a => P a
  | PDecimal _ a b | PMap _ a b | PFunc _ a b | PBin _ a b => P a /\ P b
  | PStruct _ fs | PUser _ _ fs | PParams fs | PCall _ fs => All P fs
  | PNStruct _ fs => All (fun f => P (snd f)) fs
  | PMulti defs f _ => All (fun d => P (snd (fst d))) defs /\ P f
  | PIf a b c | PTern a b c => P a /\ P b /\ P c
  end.
Section TreeInd.
  Variable P : tree -> Prop.
  Hypothesis Hsub : forall t, subs P t -> P t.
  Fixpoint tree_ind2 (t : tree) : P t :=
    Hsub t
      (match t as t0 return subs P t0 with
       | PScalar _ _ | PAny _ | PAnyVar _ _ | PNumLit _ | PNumName _ | PLit _ | PName _ _ => I
       | PSingle _ _ a | PList _ a | PNumExpr a | PParam a | PParen a | PType a | PNot a => tree_ind2 a
       | PDecimal _ a b | PMap _ a b | PFunc _ a b | PBin _ a b => conj (tree_ind2 a) (tree_ind2 b)
       | PStruct _ fs | PUser _ _ fs | PParams fs | PCall _ fs =>
           (fix go (l : list tree) : All P l :=
              match l as l0 return All P l0 with [] => I | x :: l' => conj (tree_ind2 x) (go l') end) fs
       | PNStruct _ fs =>
           (fix go (l : list (string * tree)) : All (fun f => P (snd f)) l :=
              match l as l0 return All (fun f => P (snd f)) l0 with
              | [] => I
              | x :: l' => conj (tree_ind2 (snd x)) (go l')
              end) fs
       | PMulti defs f _ =>
           conj ((fix go (l : list (string * tree * nat)) : All (fun d => P (snd (fst d))) l :=
              match l as l0 return All (fun d => P (snd (fst d))) l0 with
              | [] => I
              | x :: l' => conj (tree_ind2 (snd (fst x))) (go l')
              end) defs) (tree_ind2 f)
       | PIf a b c | PTern a b c => conj (tree_ind2 a) (conj (tree_ind2 b) (tree_ind2 c))
       end).
End TreeInd.

Definition balanced (t : tree) : Prop :=
  (count (TSym "<") (yield t) + uses (TSym ">") t = count (TSym ">") (yield t) + uses (TSym "<") t)%nat.

Lemma balanced_sepby : forall A (f : A -> list tok) (ul ug : A -> nat) l,
  All (fun x => (count (TSym "<") (f x) + ug x = count (TSym ">") (f x) + ul x)%nat) l ->
  (count (TSym "<") (sepby f l) + list_sum (map ug l) = count (TSym ">") (sepby f l) + list_sum (map ul l))%nat.
Proof.
  intros A f ul ug. induction l as [|x l IH]; intros H; [reflexivity|]. cbn [All] in H. destruct H as [Hx Hl].
  specialize (IH Hl). cbn [sepby map list_sum fold_right]. rewrite !count_app. unfold list_sum in *.
  destruct l; cbn [count is_tok b2n String.eqb Ascii.eqb Bool.eqb] in *; cbn in *; lia.
Qed.

Ltac bal := repeat (progress (rewrite ?count_app; cbn [count is_tok b2n]));
  rewrite ?(proj1 (count_q _)), ?(proj2 (count_q _)), ?count_nl; cbn in *; lia.

Lemma tree_balanced : forall s t, gram s t -> balanced t.
Proof.
  intros s t. revert s. induction t as [t IH] using tree_ind2. intros s G.
  assert (forall l, All (fun e => forall s, gram s e -> balanced e) l -> All (gram (GExpr 0)) l ->
    All (fun x => (count (TSym "<") (yield x) + uses (TSym ">") x = count (TSym ">") (yield x) + uses (TSym "<") x)%nat) l) as HL.
  { clear. induction l as [|x l IHl]; cbn; [auto|]. intros [Hx Hl] [Gx Gl]. split; [exact (Hx _ Gx)|auto]. }
  destruct t; unfold balanced; cbn [yield uses subs] in *; cbn [gram] in G.
  - bal.
  - destruct G as (_ & _ & G). pose proof (IH _ G) as B. unfold balanced in B. bal.
  - destruct G as (_ & G1 & G2), IH as [I1 I2]. pose proof (I1 _ G1) as B1. pose proof (I2 _ G2) as B2. unfold balanced in B1, B2. bal.
  - destruct G as (_ & _ & G). pose proof (balanced_sepby _ yield (uses (TSym "<")) (uses (TSym ">")) fs (HL _ IH G)) as B. bal.
  - destruct G as (_ & _ & G).
    pose proof (balanced_sepby _ (fun f => let (n, e) := f : string * tree in TId n :: yield e)
      (fun f => let (_, e) := f : string * tree in uses (TSym "<") e) (fun f => let (_, e) := f : string * tree in uses (TSym ">") e) fs) as B.
    assert (All (fun x : string * tree =>
      (count (TSym "<") (let (n, e) := x in TId n :: yield e) + (let (_, e) := x in uses (TSym ">") e) =
       count (TSym ">") (let (n, e) := x in TId n :: yield e) + (let (_, e) := x in uses (TSym "<") e))%nat) fs) as Hf.
    { clear -IH G. induction fs as [|[n e] fs IHf]; cbn [All] in *; [auto|]. destruct IH as [I1 I2], G as [G1 G2].
      split; [exact (I1 _ G1)|auto]. }
    specialize (B Hf). bal.
  - destruct G as (_ & G). pose proof (IH _ G) as B. unfold balanced in B. bal.
  - destruct G as (_ & G1 & G2), IH as [I1 I2]. pose proof (I1 _ G1) as B1. pose proof (I2 _ G2) as B2. unfold balanced in B1, B2. bal.
  - destruct G as (_ & G1 & G2), IH as [I1 I2]. pose proof (I1 _ G1) as B1. pose proof (I2 _ G2) as B2. unfold balanced in B1, B2. bal.
  - destruct G as (_ & G). pose proof (balanced_sepby _ yield (uses (TSym "<")) (uses (TSym ">")) ps (HL _ IH G)) as B.
    destruct ps as [|p ps]; [bal|]. remember (p :: ps) as l. bal.
  - bal.
  - bal.
  - bal.
  - bal.
  - destruct G as (_ & G & _). exact (IH _ G).
  - destruct G as (_ & G). exact (IH _ G).
  - destruct G as (_ & _ & G). pose proof (balanced_sepby _ yield (uses (TSym "<")) (uses (TSym ">")) es (HL _ IH G)) as B. bal.
  - destruct G as (_ & G). pose proof (IH _ G) as B. unfold balanced in B. bal.
  - destruct G as (_ & _ & Gd & Gf), IH as [Id If]. pose proof (If _ Gf) as B. unfold balanced in B.
    assert (count (TSym "<") (concat_map (fun d : string * tree * nat =>
        match d with (x, e, m) => TId x :: TSym "=" :: yield e ++ repeat TNl m end) defs) +
      list_sum (map (fun d : string * tree * nat => match d with (_, e, _) => uses (TSym ">") e end) defs) =
      count (TSym ">") (concat_map (fun d : string * tree * nat =>
        match d with (x, e, m) => TId x :: TSym "=" :: yield e ++ repeat TNl m end) defs) +
      list_sum (map (fun d : string * tree * nat => match d with (_, e, _) => uses (TSym "<") e end) defs))%nat as B2.
    { clear -Id Gd. induction defs as [|[[x e] m] defs IHd]; [reflexivity|]. cbn [All] in Id, Gd. destruct Id as [I1 I2], Gd as [[G1 _] G2].
      specialize (IHd I2 G2). pose proof (I1 _ G1) as B. unfold balanced in B. cbn [concat_map map fst snd] in *.
      unfold list_sum in *. cbn [fold_right]. bal. }
    bal.
  - destruct G as (_ & G). exact (IH _ G).
  - bal.
  - bal.
  - destruct G as (_ & G). pose proof (balanced_sepby _ yield (uses (TSym "<")) (uses (TSym ">")) args (HL _ IH G)) as B. bal.
  - destruct G as (_ & G1 & G2 & G3), IH as (I1 & I2 & I3). pose proof (I1 _ G1) as B1. pose proof (I2 _ G2) as B2. pose proof (I3 _ G3) as B3.
    unfold balanced in B1, B2, B3. bal.
  - destruct G as (_ & G). pose proof (IH _ G) as B. unfold balanced in B. bal.
  - destruct G as (_ & Gop & G1 & G2), IH as (I1 & I2). pose proof (I1 _ G1) as B1. pose proof (I2 _ G2) as B2. unfold balanced in B1, B2.
    rewrite !count_app. cbn [count]. lia.
  - destruct G as (_ & G1 & G2 & G3), IH as (I1 & I2 & I3). pose proof (I1 _ G1) as B1. pose proof (I2 _ G2) as B2. pose proof (I3 _ G3) as B3.
    unfold balanced in B1, B2, B3. bal.
Qed.

(** ** no bracket of a printed type is an operator *)

Fixpoint quiet (l : list tok) : bool :=
  match l with
  | [] => true
  | x :: l' => negb (is_tok (TSym ">") x && starts first_tok l') && quiet l'
  end.

Lemma quiet_r : forall a b, quiet (a ++ b) = true -> quiet b = true.
Proof. induction a; cbn; intros b H; [auto|]. apply andb_true_iff in H as [_ H]. auto. Qed.
Lemma quiet_l : forall a b, quiet (a ++ b) = true -> quiet a = true.
Proof.
  induction a as [|x a IH]; intros b H; [reflexivity|]. cbn [app quiet] in *. apply andb_true_iff in H as [H1 H2].
  rewrite (IH _ H2), andb_true_r. destruct a; [|exact H1]. cbn [starts]. rewrite andb_false_r. reflexivity.
Qed.
Lemma quiet_c : forall x l, quiet (x :: l) = true -> quiet l = true.
Proof. intros x l H. exact (quiet_r [x] l H). Qed.

Lemma quiet_sepby : forall A (f : A -> list tok) (u : A -> nat) l,
  All (fun x => quiet (f x) = true -> u x = 0%nat) l -> quiet (sepby f l) = true -> list_sum (map u l) = 0%nat.
Proof.
  intros A f u. induction l as [|x l IH]; intros H Q; [reflexivity|]. cbn [All sepby] in *. destruct H as [Hx Hl].
  unfold list_sum in *. cbn [map fold_right]. rewrite (Hx (quiet_l _ _ Q)). cbn [Nat.add]. apply IH; auto.
  destruct l; [reflexivity|]. apply quiet_r in Q. apply quiet_c in Q. exact Q.
Qed.

Ltac qt := match goal with
  | H : quiet (?a ++ ?b) = true |- _ => pose proof (quiet_l _ _ H); apply quiet_r in H
  | H : quiet (_ :: _) = true |- _ => apply quiet_c in H
  end.

Lemma quiet_calm : forall s t, gram s t -> quiet (yield t) = true -> uses (TSym ">") t = 0%nat.
Proof.
  intros s t. revert s. induction t as [t IH] using tree_ind2. intros s G Q.
  assert (forall l, All (fun e => forall s, gram s e -> quiet (yield e) = true -> uses (TSym ">") e = 0%nat) l -> All (gram (GExpr 0)) l ->
    All (fun x => quiet (yield x) = true -> uses (TSym ">") x = 0%nat) l) as HL.
  { clear. induction l as [|x l IHl]; cbn; [auto|]. intros [Hx Hl] [Gx Gl]. split; [exact (Hx _ Gx)|auto]. }
  destruct t; cbn [yield uses subs] in *; cbn [gram] in G; try reflexivity;
    try (match type of Q with context[sepby] => fail 1 | _ => idtac end; repeat qt; decompose [and] IH; decompose [and] G;
         repeat match goal with H : forall s, gram s ?t -> _, G : gram ?s ?t |- _ => specialize (H s G) end;
         repeat match goal with H : quiet ?l = true -> _, G : quiet ?l = true |- _ => rewrite (H G) end; reflexivity).
  - destruct G as (_ & _ & G). repeat qt. eapply quiet_sepby; eauto.
  - destruct G as (_ & _ & G). repeat qt. eapply quiet_sepby; [|eauto]. clear -IH G.
    induction fs as [|[n e] fs IHf]; cbn [All snd] in *; [auto|]. destruct IH as [I1 I2], G as [G1 G2].
    split; [|auto]. intros Q. apply quiet_c in Q. exact (I1 _ G1 Q).
  - destruct G as (_ & G). destruct ps as [|p ps]; [reflexivity|]. remember (p :: ps) as l. repeat qt. eapply quiet_sepby; eauto.
  - destruct G as (_ & _ & G). repeat qt. eapply quiet_sepby; eauto.
  - destruct G as (_ & _ & Gd & Gf), IH as [Id If]. pose proof (quiet_l _ _ Q) as Q1. apply quiet_r, quiet_l in Q.
    rewrite (If _ Gf Q), Nat.add_0_r. clear -Id Gd Q1. induction defs as [|[[x e] m] defs IHd]; [reflexivity|].
    cbn [All fst snd concat_map] in *. destruct Id as [I1 I2], Gd as [[G1 _] G2].
    unfold list_sum in *. cbn [map fold_right]. cbn [app] in Q1. do 2 apply quiet_c in Q1.
    pose proof (quiet_l _ _ (quiet_l _ _ Q1)) as Qe. rewrite (I1 _ G1 Qe). cbn [Nat.add]. apply IHd; auto. exact (quiet_r _ _ Q1).
  - destruct G as (_ & G). repeat qt. eapply quiet_sepby; eauto.
  - destruct G as (_ & Gop & G1 & G2), IH as (I1 & I2). pose proof (quiet_l _ _ Q) as Q1. apply quiet_r in Q.
    rewrite (I1 _ G1 Q1), (I2 _ G2 (quiet_c _ _ Q)), !Nat.add_0_r. destruct (tree_first _ _ G2) as (x & l & Y & Hx).
    rewrite Y in Q. cbn [quiet starts] in Q. rewrite Hx, andb_true_r in Q. apply andb_true_iff in Q as [Q _].
    apply negb_true_iff in Q. rewrite Q. reflexivity.
Qed.

Definition calm (t : tree) : Prop := uses (TSym "<") t = 0%nat /\ uses (TSym ">") t = 0%nat.

Lemma ftoks_first : forall f, writable f -> exists x l, ftoks f = x :: l /\ type_tok x = true.
Proof.
  intros f H. destruct f; cbn [writable ftoks] in *; try tauto; try (eexists _, _; split; [reflexivity|]; try reflexivity).
  - destruct p; reflexivity.
  - destruct k as [[]| | | |]; reflexivity.
  - destruct (String.eqb name "any"); reflexivity.
Qed.

Lemma quiet_nq : forall n r, quiet (nq n ++ r) = quiet r.
Proof. intros n r. unfold nq, qmark. destruct (Z.eqb n 1); reflexivity. Qed.
Lemma quiet_skip : forall x r, is_tok (TSym ">") x = false -> quiet (x :: r) = quiet r.
Proof. intros x r H. cbn [quiet]. rewrite H. reflexivity. Qed.
Lemma quiet_gt : forall r, quiet r = true -> nf r -> quiet (TSym ">" :: r) = true.
Proof. intros r H N. cbn [quiet]. unfold nf in N. rewrite N, andb_false_r, H. reflexivity. Qed.

Lemma sepby_quiet : forall A (f : A -> list tok) l,
  All (fun x => forall r, quiet r = true -> nf r -> quiet (f x ++ r) = true) l ->
  forall r, quiet r = true -> nf r -> quiet (sepby f l ++ r) = true.
Proof.
  intros A f. induction l as [|x l IH]; intros H r Q N; [exact Q|]. cbn [All sepby] in *. destruct H as [Hx Hl].
  rewrite <- app_assoc. destruct l as [|y l]; [apply Hx; auto|]. apply Hx; [|reflexivity].
  remember (y :: l) as l0. cbn [app]. rewrite quiet_skip by reflexivity. apply IH; auto.
Qed.

Lemma ftoks_quiet : forall f, writable f -> forall r, quiet r = true -> nf r -> quiet (ftoks f ++ r) = true.
Proof.
  induction f as [p n v|b n v name l|k n v i|n v p s|name v n|n v e IHe|n v k x IHk IHx|n v fs IHfs
                 |n ps r0 IHps IHr|n v ps name IHps|l f IHf] using fdt_ind2;
    cbn [writable]; intros H r Q N; try tauto; cbn [ftoks]; cbn [app]; rewrite ?quiet_skip by (try reflexivity);
    rewrite <- ?app_assoc, ?quiet_nq; cbn [app]; rewrite ?quiet_skip by (try reflexivity); auto.
  - rewrite quiet_skip by (destruct i; reflexivity). apply quiet_gt; auto.
  - rewrite quiet_skip by (destruct p; reflexivity). rewrite quiet_skip by reflexivity.
    rewrite quiet_skip by (destruct s; reflexivity). apply quiet_gt; auto.
  - rewrite quiet_skip by (destruct (String.eqb name "any"); reflexivity). rewrite quiet_nq. auto.
  - rewrite <- app_assoc. apply IHe; try tauto; [apply quiet_gt; auto|reflexivity].
  - rewrite <- app_assoc. cbn [app]. rewrite <- app_assoc. cbn [app].
    apply IHk; try tauto; [|reflexivity]. rewrite quiet_skip by reflexivity.
    apply IHx; try tauto; [apply quiet_gt; auto|reflexivity].
  - rewrite <- app_assoc. apply sepby_quiet; [|apply quiet_gt; auto|reflexivity].
    eapply All_mp; [|exact IHfs]. tauto.
  - rewrite <- app_assoc. cbn [app]. rewrite <- app_assoc. cbn [app].
    apply sepby_quiet; [eapply All_mp; [|exact IHps]; tauto| |reflexivity]. rewrite quiet_skip by reflexivity.
    apply IHr; try tauto; [apply quiet_gt; auto|reflexivity].
  - destruct ps as [|p ps]; [exact Q|]. cbn [app]. rewrite quiet_skip by reflexivity. rewrite <- app_assoc.
    apply sepby_quiet; [|apply quiet_gt; auto|reflexivity].
    destruct H as (_ & _ & H). revert IHps H. generalize (p :: ps). clear.
    induction l as [|x l IH]; cbn [All]; [auto|]. intros [Ix Il] [Hx Hl]. split; [|auto].
    intros r Q N. destruct x; cbn [uholds utoks app] in *; [apply Ix; auto|exact Q|exact Q].
Qed.

Lemma sepby_count : forall A (f : A -> list tok) l,
  All (fun x => count (TSym "<") (f x) = count (TSym ">") (f x)) l ->
  count (TSym "<") (sepby f l) = count (TSym ">") (sepby f l).
Proof.
  intros A f. induction l as [|x l IH]; intros H; [reflexivity|]. cbn [All sepby] in *. destruct H as [Hx Hl]. specialize (IH Hl).
  rewrite !count_app. destruct l; cbn [count is_tok b2n] in *; cbn in *; lia.
Qed.

Lemma count_nq : forall n, count (TSym "<") (nq n) = 0%nat /\ count (TSym ">") (nq n) = 0%nat.
Proof. intros n. apply count_q. Qed.
Ltac bal2 := repeat (progress (rewrite ?count_app; cbn [count is_tok b2n]));
  rewrite ?(proj1 (count_nq _)), ?(proj2 (count_nq _)); cbn in *; try lia.

Lemma ftoks_count : forall f, writable f -> count (TSym "<") (ftoks f) = count (TSym ">") (ftoks f).
Proof.
  induction f as [p n v|b n v name l|k n v i|n v p s|name v n|n v e IHe|n v k x IHk IHx|n v fs IHfs
                 |n ps r0 IHps IHr|n v ps name IHps|l f IHf] using fdt_ind2;
    cbn [writable]; intros H; try tauto; cbn [ftoks].
  - bal2.
  - destruct i; bal2.
  - destruct p, s; bal2.
  - destruct (String.eqb name "any"); bal2.
  - destruct H as [_ H]. specialize (IHe H). bal2.
  - destruct H as (_ & Hk & Hx). specialize (IHk Hk). specialize (IHx Hx). bal2.
  - assert (count (TSym "<") (sepby ftoks fs) = count (TSym ">") (sepby ftoks fs)) as B
      by (apply sepby_count; eapply All_mp; [|exact IHfs]; tauto). bal2.
  - assert (count (TSym "<") (sepby ftoks ps) = count (TSym ">") (sepby ftoks ps)) as B
      by (apply sepby_count; eapply All_mp; [|exact IHps]; tauto).
    destruct H as (_ & _ & _ & Hr). specialize (IHr Hr). bal2.
  - destruct ps as [|p ps]; [bal2|].
    assert (count (TSym "<") (sepby utoks (p :: ps)) = count (TSym ">") (sepby utoks (p :: ps))) as B.
    { apply sepby_count. destruct H as (_ & _ & H). revert IHps H. generalize (p :: ps). clear.
      induction l as [|x l IH]; cbn [All]; [auto|]. intros [Ix Il] [Hx Hl]. split; [|auto].
      destruct x; cbn [uholds utoks] in *; [apply Ix; auto|reflexivity|reflexivity]. }
    remember (p :: ps) as l. bal2.
Qed.

Lemma printed_calm : forall s t f n, gram s t -> writable f -> yield t = ftoks f ++ repeat TNl n -> calm t.
Proof.
  intros s t f n G W Y. assert (uses (TSym ">") t = 0%nat) as Ug.
  { eapply quiet_calm; eauto. rewrite Y. apply ftoks_quiet; auto; destruct n as [|n]; try reflexivity.
    clear. induction n as [|n IH]; [reflexivity|exact IH]. }
  pose proof (tree_balanced _ _ G) as B. unfold balanced in B. rewrite Y, !count_app, !count_nl, (ftoks_count f W) in B.
  split; [lia|exact Ug].
Qed.

(** ** types *)

Definition stop (r : list tok) : Prop :=
  match r with
  | [] => True
  | TSym s :: _ => s = ","%string \/ s = ">"%string \/ s = "->"%string
  | _ => False
  end.
Definition after (R : list tok) : Prop :=
  nf R /\ starts (tok_is "<") R = false /\ forall x, R = TSym "?" :: x -> starts first_tok x = true.

Lemma stop_nf : forall r, stop r -> nf r.
Proof. intros [|[] r] H; cbn in H; try tauto; try reflexivity. destruct H as [-> | [-> | ->]]; reflexivity. Qed.
Lemma stop_after : forall r, stop r -> after r.
Proof.
  intros r H. split; [apply stop_nf; auto|]. destruct r as [|[] r]; cbn in H; try tauto; (split; [|discriminate || auto]).
  - reflexivity.
  - destruct H as [-> | [-> | ->]]; reflexivity.
  - intros x E. inversion E; subst. destruct H as [H|[H|H]]; discriminate H.
Qed.
Lemma stop_q : forall r, stop (TSym "?" :: r) -> False.
Proof. intros r [H|[H|H]]; discriminate H. Qed.
Lemma stop_lt : forall r, stop (TSym "<" :: r) -> False.
Proof. intros r [H|[H|H]]; discriminate H. Qed.

Lemma q_angle : forall q n A B, (n = 1 \/ n = 2)%Z ->
  qmark q ++ TSym "<" :: A = nq n ++ TSym "<" :: B -> null_of q = n /\ A = B.
Proof. intros q n A B [-> | ->] E; destruct q; cbn in E; inversion E; split; reflexivity. Qed.
Lemma q_end : forall q n R r, (n = 1 \/ n = 2)%Z -> after R -> stop r ->
  qmark q ++ R = nq n ++ r -> null_of q = n /\ R = r.
Proof.
  intros q n R r [-> | ->] (HN & _ & Hq) Hr E; destruct q; cbn in E.
  - inversion E. split; reflexivity.
  - specialize (Hq _ E). apply stop_nf in Hr. unfold nf in Hr. congruence.
  - subst r. destruct (stop_q _ Hr).
  - split; [reflexivity|exact E].
Qed.

Definition TH (f : fdt) : Prop := forall t R r',
  gram GType t -> calm t -> yield t ++ R = ftoks f ++ r' -> after R -> stop r' ->
  visit t = Ok (XType f) /\ R = r'.
Definition UT (f : fdt) : Prop := forall e r r',
  gram (GExpr 0) e -> calm e -> yield e ++ r = ftoks f ++ r' -> stop r -> stop r' ->
  visit e = Ok (XType f) /\ r = r'.

Definition sfx_calm (s : sfx) : Prop :=
  match s with SBin op _ => op <> TSym "<" /\ op <> TSym ">" | STern _ _ => True end.
Lemma calm_spine : forall ss h, calm (fold_left add_sfx ss h) -> calm h /\ Forall sfx_calm ss.
Proof.
  induction ss as [|s ss IH]; intros h H; [auto|]. cbn [fold_left] in H. apply IH in H as [H Hs].
  destruct H as [H1 H2]. destruct s as [op r|t e]; cbn [add_sfx uses] in *.
  - split; [split; lia|]. constructor; [|auto]. cbn. split; intros ->; cbn in *; lia.
  - split; [split; lia|]. constructor; [exact I|auto].
Qed.

(** An operator left after a type or a number cannot be what follows it. *)
Lemma sfx_stop : forall p ss r r', Forall (sfx_ok p) ss -> Forall sfx_calm ss -> syield ss ++ r = r' -> stop r' -> ss = [].
Proof.
  intros p [|s ss] r r' H C E S; [reflexivity|exfalso].
  inversion H as [|? ? Hs _]; inversion C as [|? ? Cs _]; subst. destruct s as [op e|t e]; cbn [sfx_ok sfx_calm syield flat_map sfx_yield app] in *.
  - destruct Hs as (_ & Hop & _), Cs as [C1 C2]. cbn in Hop.
    repeat (destruct Hop as [<-|Hop]; [cbn in S; try congruence; try tauto; destruct S as [S|[S|S]]; discriminate S|]). exact Hop.
  - destruct S as [S|[S|S]]; discriminate S.
Qed.

Lemma after_sfx : forall p ss r, Forall (sfx_ok p) ss -> Forall sfx_calm ss -> stop r -> after (syield ss ++ r).
Proof.
  intros p [|s ss] r H C S; [apply stop_after; auto|].
  split; [eapply nf_rest; eauto using stop_nf|].
  inversion H as [|? ? Hs _]; inversion C as [|? ? Cs _]; subst. destruct s as [op e|t e]; cbn [sfx_ok sfx_calm syield flat_map sfx_yield app starts] in *.
  - destruct Hs as (_ & Hop & _), Cs as [C1 C2]. split.
    + destruct op; try reflexivity. unfold tok_is. apply String.eqb_neq. intros <-. congruence.
    + intros x E. exfalso. inversion E; subst. cbn in Hop. repeat (destruct Hop as [Hop|Hop]; [discriminate Hop|]). exact Hop.
  - split; [reflexivity|]. intros x E. inversion E. destruct Hs as (_ & Ht & _).
    destruct (tree_first _ _ Ht) as (y & l & Y & Hy). rewrite Y. exact Hy.
Qed.

Lemma UT_of_TH : forall f, writable f -> TH f -> UT f.
Proof.
  intros f W H e r r' G C E S S'. destruct (spine _ _ G) as (h & ss & -> & Hh & Gh & Fs & Y).
  destruct (calm_spine _ _ C) as [Ch Cs]. rewrite Y, <- app_assoc in E.
  destruct (ftoks_first f W) as (x & l & F & Tx).
  assert (exists t, h = PType t /\ gram GType t) as (t & -> & Gt).
  { rewrite F in E. clear -E Tx Gh Hh.
    destruct (head_cases _ Gh Hh) as [(w & ->)|[(w & q & ->)|[(w & args' & -> & Ga)|[(w & e1 & m1 & defs & f & n1 & -> & _)
      |[(e1 & -> & Ge1)|[(e1 & -> & Ge1)|[(c1 & t1 & e1 & -> & _)|(t1 & -> & Gt1)]]]]]]]; eauto;
      cbn [yield concat_map app] in E; inversion E; subst x; discriminate Tx. }
  cbn [yield] in E. destruct (H t _ _ Gt Ch E (after_sfx _ _ _ Fs Cs S) S') as [V ER].
  assert (ss = []) as -> by (eapply sfx_stop; eauto). cbn in *. auto.
Qed.

(** One constructor of the tree fits the first token. *)
Definition type_shape (t : tree) : Prop :=
  match t with
  | PScalar _ _ | PSingle _ _ _ | PDecimal _ _ _ | PStruct _ _ | PNStruct _ _ | PList _ _ | PMap _ _ _
  | PFunc _ _ _ | PUser _ _ _ | PAny _ | PAnyVar _ _ => True
  | _ => False
  end.
Lemma gram_type : forall t, gram GType t -> type_shape t.
Proof.
  intros t H. destruct t; cbn [gram type_shape] in *; auto; try (destruct H as [H _]; discriminate H); try discriminate H;
    try (destruct H as [[l H] _]; discriminate H); try (destruct H as [[l [H _]] _]; discriminate H); try (destruct H as [l H]; discriminate H).
Qed.
Ltac tcase t G E := let S := fresh in pose proof (gram_type t G) as S; destruct t; cbn [type_shape] in S; try (destruct S; fail);
  clear S; cbn [gram] in G; cbn [yield app] in E; try discriminate E.
Definition num_shape (t : tree) : Prop :=
  match t with PNumLit _ | PNumName _ | PNumExpr _ => True | _ => False end.
Lemma gram_num : forall t, gram GNumeric t -> num_shape t.
Proof.
  intros t H. destruct t; cbn [gram num_shape] in *; auto; try (destruct H as [H _]; discriminate H); try discriminate H;
    try (destruct H as [[l H] _]; discriminate H); try (destruct H as [[l [H _]] _]; discriminate H); try (destruct H as [l H]; discriminate H).
Qed.
Definition params_shape (t : tree) : Prop :=
  match t with PParam _ | PParams _ => True | _ => False end.
Lemma gram_params : forall t, gram GParams t -> params_shape t.
Proof.
  intros t H. destruct t; cbn [gram params_shape] in *; auto; try (destruct H as [H _]; discriminate H); try discriminate H;
    try (destruct H as [[l H] _]; discriminate H); try (destruct H as [[l [H _]] _]; discriminate H); try (destruct H as [l H]; discriminate H).
Qed.

Lemma num_unique : forall p R i r', gram GNumeric p -> calm p -> numeral_or_name i ->
  yield p ++ R = itok i :: r' -> stop r' -> R <> [] -> visit p = Ok (XInt i) /\ R = r'.
Proof.
  intros p R i r' G C Hi E S HR. pose proof (gram_num _ G) as Sh. destruct p; try (destruct Sh; fail); clear Sh; cbn [gram] in G.
  - destruct i as [z|s]; cbn [yield itok app] in E; inversion E; subst. split; [|reflexivity]. cbn [visit].
    cbn in Hi. rewrite parse_string_of_Z by (unfold in_int in *; cbn in *; lia). cbn [bind].
    rewrite DecimalProofs.wrap_small by (unfold in_int in Hi; cbn in Hi; lia). reflexivity.
  - destruct i as [z|s]; cbn [yield itok app] in E; inversion E; subst. split; reflexivity.
  - exfalso. destruct G as (_ & G & Hn). destruct (spine _ _ G) as (h & ss & -> & Hh & Gh & Fs & Y).
    destruct C as [C1 C2]. cbn [uses] in C1, C2. destruct (calm_spine _ _ (conj C1 C2)) as [Ch Cs]. cbn [yield] in E. rewrite Y, <- app_assoc in E.
    clear Y. destruct (head_cases _ Gh Hh) as [(w & ->)|[(w & q & ->)|[(w & args' & -> & Ga)|[(w & e1 & m1 & defs & f & n1 & -> & _)
      |[(e1 & -> & Ge1)|[(e1 & -> & Ge1)|[(c1 & t1 & e1 & -> & _)|(t1 & -> & Gt1)]]]]]]].
    + cbn [yield app] in E. injection E as _ E. assert (ss = []) as -> by (eapply sfx_stop; eauto). exact Hn.
    + cbn [yield app] in E. injection E as _ E. destruct q; cbn [qmark app] in E.
      * subst r'. exact (stop_q _ S).
      * assert (ss = []) as -> by (eapply sfx_stop; eauto). exact Hn.
    + cbn [yield app] in E. injection E as _ E. subst r'. destruct S as [S|[S|S]]; discriminate S.
    + cbn [yield app concat_map] in E. injection E as _ E. subst r'. destruct S as [S|[S|S]]; discriminate S.
    + destruct i; discriminate E.
    + destruct i; discriminate E.
    + destruct i; discriminate E.
    + cbn [yield] in E. destruct (type_first _ Gt1) as (x & l & Y & Tx). rewrite Y in E. cbn [app] in E. inversion E; subst x. destruct i; discriminate Tx.
Qed.

Lemma list_sum_0 : forall A (u : A -> nat) l, list_sum (map u l) = 0%nat -> All (fun x => u x = 0%nat) l.
Proof. intros A u. induction l as [|x l IH]; cbn; [auto|]. intros H. split; [lia|apply IH; unfold list_sum; lia]. Qed.
Lemma All_and : forall A (P Q : A -> Prop) l, All P l -> All Q l -> All (fun x => P x /\ Q x) l.
Proof. induction l; cbn; intuition auto. Qed.
Lemma calm_list : forall fs, list_sum (map (uses (TSym "<")) fs) = 0%nat -> list_sum (map (uses (TSym ">")) fs) = 0%nat -> All calm fs.
Proof. intros fs H1 H2. apply (All_and _ (fun e => uses (TSym "<") e = 0%nat) (fun e => uses (TSym ">") e = 0%nat)); apply list_sum_0; auto. Qed.

Lemma scalar_prim_name : forall p, scalar_prim (prim_name p) = Some p.
Proof. destruct p; reflexivity. Qed.
Lemma single_kind_name : forall k, single_kind (single_name k) = Some k.
Proof. destruct k as [[]| | | |]; reflexivity. Qed.

Lemma stop_c : forall s r, (s = "," \/ s = ">" \/ s = "->")%string -> stop (TSym s :: r).
Proof. auto. Qed.

Lemma type_unique : forall f, writable f -> TH f.
Proof.
  induction f as [p n v|b n v name l|k n v i|n v p s|name v n|n v e IHe|n v k x IHk IHx|n v fs IHfs
                 |n ps r0 IHps IHr|n v ps name IHps|l f IHf] using fdt_ind2;
    cbn [writable]; intros W t R r' G C E A S; try tauto; cbn [ftoks] in E; cbn [app] in E.
  - (* a primitive type *)
    destruct W as [Hn ->]. tcase t G E; try (inversion E as [[E1 E2]]; destruct p; discriminate E1).
    + inversion E as [[E1 E2]]. destruct (q_end _ _ _ _ Hn A S E2) as [<- ->]. split; [|reflexivity].
      cbn [visit]. rewrite scalar_prim_name. reflexivity.
    + exfalso. destruct G as (_ & G & _). inversion E as [[E1 E2]]. subst kw. cbn in G.
      repeat (destruct G as [G|G]; [destruct p; discriminate G|]). exact G.
  - (* a type with one parameter *)
    destruct W as [[Hn ->] Hi]. tcase t G E; try (inversion E as [[E1 E2]]; destruct k as [[]| | | |]; discriminate E1).
    + exfalso. destruct G as [_ G]. inversion E as [[E1 E2]]. subst kw. cbn in G.
      repeat (destruct G as [G|G]; [destruct k as [[]| | | |]; discriminate G|]). exact G.
    + destruct G as (_ & _ & G). inversion E as [[E1 E2]]. repeat (rewrite <- app_assoc in E2; cbn [app] in E2).
      destruct (q_angle _ _ _ _ Hn E2) as [<- E3].
      destruct (num_unique t _ i _ G C Hi E3) as [V E4]; [apply stop_c; auto|discriminate|].
      inversion E4. split; [|reflexivity]. cbn [visit]. rewrite single_kind_name, V. reflexivity.
  - (* decimals *)
    destruct W as ([Hn ->] & Hp & Hs). tcase t G E; try (exfalso; inversion E as [[E1 E2]]; subst kw; clear -G; cbn in G; intuition discriminate).
    destruct G as (_ & G1 & G2), C as [C1 C2]. cbn [uses] in C1, C2. inversion E as [E2]. repeat (rewrite <- app_assoc in E2; cbn [app] in E2).
    destruct (q_angle _ _ _ _ Hn E2) as [<- E3]. repeat (rewrite <- app_assoc in E3; cbn [app] in E3).
    destruct (num_unique t1 _ p _ G1 ltac:(split; lia) Hp E3) as [V1 E4]; [apply stop_c; auto|discriminate|].
    inversion E4 as [E5].
    destruct (num_unique t2 _ s _ G2 ltac:(split; lia) Hs E5) as [V2 E6]; [apply stop_c; auto|discriminate|].
    inversion E6. split; [|reflexivity]. cbn [visit]. rewrite V1, V2. reflexivity.
  - (* any types *)
    destruct W as ([Hn ->] & Hname). destruct (String.eqb_spec name "any") as [->|Hne].
    + tcase t G E; try (exfalso; inversion E as [[E1 E2]]; subst kw; clear -G; cbn in G; intuition discriminate).
      inversion E as [E2]. destruct (q_end _ _ _ _ Hn A S E2) as [<- ->]. split; reflexivity.
    + tcase t G E. inversion E as [[E1 E2]]. destruct (q_end _ _ _ _ Hn A S E2) as [<- ->]. split; reflexivity.
  - (* lists *)
    destruct W as ([Hn ->] & We). tcase t G E; try (exfalso; inversion E as [[E1 E2]]; subst kw; clear -G; cbn in G; intuition discriminate).
    destruct G as (_ & G). inversion E as [E2]. repeat (rewrite <- app_assoc in E2; cbn [app] in E2).
    destruct (q_angle _ _ _ _ Hn E2) as [<- E3].
    destruct (UT_of_TH _ We (IHe We) t _ _ G C E3) as [V E4]; [apply stop_c; auto|apply stop_c; auto|].
    inversion E4. split; [|reflexivity]. cbn [visit]. rewrite V. reflexivity.
  - (* maps *)
    destruct W as ([Hn ->] & Wk & Wx). tcase t G E; try (exfalso; inversion E as [[E1 E2]]; subst kw; clear -G; cbn in G; intuition discriminate).
    destruct G as (_ & G1 & G2), C as [C1 C2]. cbn [uses] in C1, C2. inversion E as [E2]. repeat (rewrite <- app_assoc in E2; cbn [app] in E2).
    destruct (q_angle _ _ _ _ Hn E2) as [<- E3]. repeat (rewrite <- app_assoc in E3; cbn [app] in E3).
    destruct (UT_of_TH _ Wk (IHk Wk) t1 _ _ G1 ltac:(split; lia) E3) as [V1 E4]; [apply stop_c; auto|apply stop_c; auto|].
    inversion E4 as [E5].
    destruct (UT_of_TH _ Wx (IHx Wx) t2 _ _ G2 ltac:(split; lia) E5) as [V2 E6]; [apply stop_c; auto|apply stop_c; auto|].
    inversion E6. split; [|reflexivity]. cbn [visit]. rewrite V1, V2. reflexivity.
  - (* structs *)
    destruct W as ([Hn ->] & Hne & Wfs). tcase t G E; try (exfalso; inversion E as [[E1 E2]]; subst kw; clear -G; cbn in G; intuition discriminate).
    destruct G as (_ & _ & G), C as [C1 C2]. cbn [uses] in C1, C2. inversion E as [E2]. repeat (rewrite <- app_assoc in E2; cbn [app] in E2).
    destruct (q_angle _ _ _ _ Hn E2) as [<- E3].
    destruct (sepby_unique _ ftoks (fun e f => visit e = Ok (XType f)) calm (TSym ">") eq_refl ltac:(discriminate) fs)
      with (es := fs0) (R := R) (r' := r') as [HF ER]; auto using calm_list.
    + clear -IHfs Wfs. induction fs as [|f fs IH]; cbn [All] in *; [auto|]. destruct IHfs as [If Ifs], Wfs as [Wf Wfs].
      split; [|auto]. split.
      * destruct (ftoks_first f Wf) as (x & l & -> & Hx). eauto using type_tok_first.
      * intros e r r' Ge Ce E Hr Hr'. apply (UT_of_TH _ Wf (If Wf) e r r' Ge Ce E).
        -- destruct Hr as (r1 & [-> | ->]); apply stop_c; auto.
        -- destruct Hr' as (r1 & [-> | ->]); apply stop_c; auto.
    + split; [|auto]. cbn [visit]. rewrite (mapM_good _ _ fs0 fs); [reflexivity|].
      clear -HF. induction HF as [|e d es ds He HF IH]; constructor; auto. rewrite He. reflexivity.
  - (* functions *)
    destruct W as ([Hn _] & Hl & Wps & Wr). destruct ps as [|p [|p' ps]]; try discriminate Hl. clear Hl.
    cbn [All sepby] in *. destruct Wps as [Wp _], IHps as [IHp _]. rewrite app_nil_r in E.
    tcase t G E; try (exfalso; inversion E as [[E1 E2]]; subst kw; clear -G; cbn in G; intuition discriminate).
    destruct G as (_ & G1 & G2), C as [C1 C2]. cbn [uses] in C1, C2. inversion E as [E2]. repeat (rewrite <- app_assoc in E2; cbn [app] in E2).
    destruct (q_angle _ _ _ _ Hn E2) as [<- E3]. repeat (rewrite <- app_assoc in E3; cbn [app] in E3).
    assert (exists e, t1 = PParam e /\ gram (GExpr 0) e) as (e & -> & Ge).
    { clear -G1 E3 Wp. pose proof (gram_params _ G1) as Sh. destruct t1; try (destruct Sh; fail); cbn [gram] in G1.
      - destruct G1 as [_ G1]. eauto.
      - destruct (ftoks_first p Wp) as (x & l & F & Hx). rewrite F in E3. cbn [yield app] in E3. inversion E3; subst x. discriminate Hx. }
    cbn [yield uses] in *.
    destruct (UT_of_TH _ Wp (IHp Wp) e _ _ Ge ltac:(split; lia) E3) as [V1 E4]; [apply stop_c; auto|apply stop_c; auto|].
    inversion E4 as [E5].
    destruct (UT_of_TH _ Wr (IHr Wr) t2 _ _ G2 ltac:(split; lia) E5) as [V2 E6]; [apply stop_c; auto|apply stop_c; auto|].
    inversion E6. split; [|reflexivity]. cbn [visit]. rewrite V1, V2. reflexivity.
  - (* user-defined types *)
    destruct W as ([Hn ->] & Hname & Wps).
    tcase t G E; try (exfalso; inversion E as [[E1 E2]]; subst kw; clear -G; cbn in G; intuition discriminate).
    destruct G as (_ & G), C as [C1 C2]. cbn [uses] in C1, C2. inversion E as [[E1 E2]]. subst name0. rewrite <- !app_assoc in E2.
    destruct ps0 as [|p0 ps0], ps as [|p ps].
    + cbn [app] in E2. destruct (q_end _ _ _ _ Hn A S E2) as [<- ->]. split; reflexivity.
    + exfalso. cbn [app] in E2. destruct A as (N & A1 & A2). clear -E2 N A1 A2 Hn.
      destruct Hn as [-> | ->], q; cbn in E2.
      * inversion E2. subst R. discriminate A1.
      * specialize (A2 _ E2). discriminate A2.
      * discriminate E2.
      * subst R. discriminate A1.
    + exfalso. cbn [app] in E2. destruct Hn as [-> | ->], q; cbn in E2.
      * inversion E2. subst r'. eapply stop_lt; eauto.
      * discriminate E2.
      * subst r'. eapply stop_q; eauto.
      * subst r'. eapply stop_lt; eauto.
    + remember (p0 :: ps0) as es. remember (p :: ps) as l. cbn [app] in E2. rewrite <- !app_assoc in E2. cbn [app] in E2.
      destruct (q_angle _ _ _ _ Hn E2) as [<- E3].
      destruct (sepby_unique _ utoks (fun e p => (let! x := visit e in user_param x) = Ok p) calm (TSym ">") eq_refl ltac:(discriminate) l)
        with (es := es) (R := R) (r' := r') as [HF ER]; auto using calm_list.
      * clear -IHps Wps. induction l as [|p l IH]; cbn [All] in *; [auto|]. destruct IHps as [Ip Il], Wps as [Wp Wl].
        split; [|auto]. destruct p as [f|z|s]; cbn [uholds utoks] in *.
        -- split.
           ++ destruct (ftoks_first f Wp) as (x & l0 & -> & Hx). eauto using type_tok_first.
           ++ intros e r r' Ge Ce E Hr Hr'. destruct (UT_of_TH _ Wp (Ip Wp) e r r' Ge Ce E) as [V ER].
              ** destruct Hr as (r1 & [-> | ->]); apply stop_c; auto.
              ** destruct Hr' as (r1 & [-> | ->]); apply stop_c; auto.
              ** rewrite V. split; [reflexivity|auto].
        -- split; [eexists _, _; split; reflexivity|]. intros e r r' Ge Ce E Hr Hr'.
           destruct (expr_unique (DNum z)) as (HO & _ & _).
           assert (in_int 64 z) as Hz by (unfold in_int in *; cbn in *; lia).
           destruct (spine _ _ Ge) as (h & ss & -> & Hh & Gh & Fs & Y). destruct (calm_spine _ _ Ce) as [Ch Cs].
           rewrite Y, <- app_assoc in E. assert (stop r') as S' by (destruct Hr' as (r1 & [-> | ->]); apply stop_c; auto).
           assert (stop r) as S by (destruct Hr as (r1 & [-> | ->]); apply stop_c; auto).
           destruct (HO Hz h _ r' Gh Hh E) as [V ER]; auto.
           ++ eapply nf_rest; eauto using stop_nf.
           ++ destruct (stop_after _ S') as (P1 & _ & P2). split; auto.
           ++ destruct h; auto. exfalso. destruct (head_cases _ Gh Hh) as [(w & Q)|[(w & q & Q)|[(w & args' & Q & Ga)|[(w & e1 & m1 & defs' & f & n1 & Q & _)
                |[(e1 & Q & Ge1)|[(e1 & Q & Ge1)|[(c1 & t1 & e1 & Q & _)|(t1 & Q & Gt1)]]]]]]]; try discriminate Q.
              rewrite Q in E. discriminate E.
           ++ assert (ss = []) as -> by (eapply sfx_stop; eauto). cbn [fold_left]. rewrite V. cbn [bind user_param].
              rewrite DecimalProofs.wrap_small by (unfold in_int in Wp; cbn in Wp; lia). split; [reflexivity|exact ER].
        -- split; [eexists _, _; split; reflexivity|]. intros e r r' Ge Ce E Hr Hr'.
           destruct (expr_unique (DName s)) as (HO & _ & _).
           destruct (spine _ _ Ge) as (h & ss & -> & Hh & Gh & Fs & Y). destruct (calm_spine _ _ Ce) as [Ch Cs].
           rewrite Y, <- app_assoc in E. assert (stop r') as S' by (destruct Hr' as (r1 & [-> | ->]); apply stop_c; auto).
           assert (stop r) as S by (destruct Hr as (r1 & [-> | ->]); apply stop_c; auto).
           destruct (HO Wp h _ r' Gh Hh E) as [V ER]; auto.
           ++ eapply nf_rest; eauto using stop_nf.
           ++ destruct (stop_after _ S') as (P1 & _ & P2). split; auto.
           ++ destruct h; auto. exfalso. destruct (head_cases _ Gh Hh) as [(w & Q)|[(w & q & Q)|[(w & args' & Q & Ga)|[(w & e1 & m1 & defs' & f & n1 & Q & _)
                |[(e1 & Q & Ge1)|[(e1 & Q & Ge1)|[(c1 & t1 & e1 & Q & _)|(t1 & Q & Gt1)]]]]]]]; try discriminate Q.
              rewrite Q in E. cbn [yield concat_map app utoks] in E. inversion E as [[E1 E2]]. subst r'.
              destruct S' as [S'|[S'|S']]; discriminate S'.
           ++ assert (ss = []) as -> by (eapply sfx_stop; eauto). cbn [fold_left]. rewrite V. split; [reflexivity|exact ER].
      * split; [|auto]. cbn [visit]. rewrite (mapM_good _ _ es l HF). reflexivity.
Qed.
