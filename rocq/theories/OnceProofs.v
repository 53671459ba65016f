(** Proofs for C75. *)

From Coq Require Import List Bool Arith Lia String.
From Verif Require Import Base LoadModel LoadProps PlanAliasModel PlanAliasProofs OnceModel OnceSpec.
Import ListNotations.

Section Once.
Variable entries : list entry.

Definition outside (x : pc) : Prop := x = Start \/ x = Lock.
Definition after (r : result) (x : pc) : Prop := x = Start \/ x = Lock \/ x = Read \/ x = Returned (Got r).

(** the one goroutine that loads *)
Definition loader (s : st) (x : pc) : Prop :=
  match x with
  | Loading es p => p = 0 /\ s_valid s = false /\ s_res s = RNil /\ exists c, s_heap s = [c] /\ forall r, loads_to c es r -> loads_to empty_coll entries r
  | Store r => s_valid s = false /\ s_res s = RNil /\ exists c, s_heap s = [c] /\ (r = RPtr 0 /\ loads_to empty_coll entries (Some c) \/ r = RErr /\ loads_to empty_coll entries None)
  | SetValid => s_valid s = false /\ exists c, s_heap s = [c] /\ (s_res s = RPtr 0 /\ loads_to empty_coll entries (Some c) \/ s_res s = RErr /\ loads_to empty_coll entries None)
  | SetDone => s_valid s = true /\ exists c, s_heap s = [c] /\ (s_res s = RPtr 0 /\ loads_to empty_coll entries (Some c) \/ s_res s = RErr /\ loads_to empty_coll entries None)
  | _ => False
  end.

(** all goroutines are [P] but one, which is [Q] *)
Definition all_but (P Q : pc -> Prop) (pcs : list pc) : Prop :=
  exists i x, nth_error pcs i = Some x /\ Q x /\ forall j y, j <> i -> nth_error pcs j = Some y -> P y.
Definition all (P : pc -> Prop) (pcs : list pc) : Prop := forall j y, nth_error pcs j = Some y -> P y.
Definition held (lock : bool) (P Q : pc -> Prop) (pcs : list pc) : Prop := if lock then all_but P Q pcs else all P pcs.

Inductive inv (used_files : option file -> Prop) (s : st) : Prop :=
| Inv_fresh : s_done s = false -> s_valid s = false -> s_res s = RNil -> s_heap s = [] -> s_loads s = 0 ->
    held (s_lock s) outside (fun x => x = Check) (s_pcs s) -> inv used_files s
| Inv_loading : s_done s = false -> s_lock s = true -> s_loads s = 1 -> all_but outside (loader s) (s_pcs s) -> inv used_files s
| Inv_done : s_done s = true -> s_valid s = true -> s_loads s = 1 ->
    held (s_lock s) (after (s_res s)) (fun x => x = Check \/ x = Unlock) (s_pcs s) ->
    (exists c us, (forall f, In f us -> used_files f) /\ s_heap s = [load_all us c] /\
       (s_res s = RPtr 0 /\ loads_to empty_coll entries (Some c) \/ s_res s = RErr /\ loads_to empty_coll entries None)) -> inv used_files s.

Lemma put_at : forall (pcs : list pc) i x y, nth_error pcs i = Some x -> nth_error (put i y pcs) i = Some y.
Proof.
  intros pcs i x y E. rewrite put_nth, Nat.eqb_refl. assert (L : i < List.length pcs) by (apply nth_error_Some; congruence).
  apply Nat.ltb_lt in L. rewrite L. auto.
Qed.
Lemma put_else : forall (pcs : list pc) i j y, j <> i -> nth_error (put i y pcs) j = nth_error pcs j.
Proof. intros pcs i j y N. rewrite put_nth. destruct (Nat.eqb_spec i j); [congruence|auto]. Qed.

Lemma held_step : forall lock P Q pcs i x y, held lock P Q pcs -> nth_error pcs i = Some x -> P x -> ~ Q x -> P y -> held lock P Q (put i y pcs).
Proof.
  intros lock P Q pcs i x y H E PX NQ PY. destruct lock; cbn in *.
  - destruct H as (k & z & EK & QZ & O). exists k, z. assert (k <> i) by (intros ->; congruence).
    split; [rewrite put_else; auto|]. split; auto. intros j w NJ EJ. destruct (Nat.eq_dec j i) as [->|N].
    + rewrite (put_at _ _ _ _ E) in EJ. injection EJ as <-. auto.
    + rewrite put_else in EJ by auto. eauto.
  - intros j w EJ. destruct (Nat.eq_dec j i) as [->|N].
    + rewrite (put_at _ _ _ _ E) in EJ. injection EJ as <-. auto.
    + rewrite put_else in EJ by auto. eauto.
Qed.
Lemma held_take : forall P Q pcs i x y, held false P Q pcs -> nth_error pcs i = Some x -> Q y -> held true P Q (put i y pcs).
Proof.
  intros P Q pcs i x y H E QY. cbn in *. exists i, y. split; [eapply put_at; eauto|]. split; auto.
  intros j w N EJ. rewrite put_else in EJ by auto. eauto.
Qed.
Lemma held_one : forall P Q pcs i x, held true P Q pcs -> nth_error pcs i = Some x -> ~ P x ->
  Q x /\ forall j y, j <> i -> nth_error pcs j = Some y -> P y.
Proof.
  intros P Q pcs i x (k & z & EK & QZ & O) E NP. destruct (Nat.eq_dec i k) as [->|N].
  - rewrite E in EK. injection EK as ->. auto.
  - destruct (NP (O _ _ N E)).
Qed.
Lemma others_put : forall (P : pc -> Prop) pcs i y, (forall j w, j <> i -> nth_error pcs j = Some w -> P w) -> P y -> all P (put i y pcs).
Proof.
  intros P pcs i y O PY j w EJ. rewrite put_nth in EJ. destruct (Nat.eqb_spec i j) as [->|N]; [|eauto].
  destruct (j <? List.length pcs); [injection EJ as <-; auto|discriminate].
Qed.
Lemma others_but : forall (P Q : pc -> Prop) pcs i x y, nth_error pcs i = Some x -> (forall j w, j <> i -> nth_error pcs j = Some w -> P w) -> Q y -> all_but P Q (put i y pcs).
Proof.
  intros P Q pcs i x y E O QY. exists i, y. split; [eapply put_at; eauto|]. split; auto. intros j w N EJ. rewrite put_else in EJ by auto. eauto.
Qed.
Lemma all_but_more : forall (P Q Q' : pc -> Prop) pcs, (forall x, Q x -> Q' x) -> all_but P Q pcs -> all_but P Q' pcs.
Proof. intros P Q Q' pcs H (i & x & E & QX & O). exists i, x. auto. Qed.
Lemma held_new : forall lock (P Q : pc -> Prop) pcs y, held lock P Q pcs -> P y -> held lock P Q (pcs ++ [y]).
Proof.
  intros lock P Q pcs y H PY.
  assert (G : forall j w, nth_error (pcs ++ [y]) j = Some w -> nth_error pcs j = Some w \/ w = y /\ j = List.length pcs).
  { intros j w E. destruct (lt_dec j (List.length pcs)) as [L|L]; [rewrite nth_error_app1 in E; auto|]. rewrite nth_error_app2 in E by lia.
    destruct (j - List.length pcs) as [|k] eqn:D; cbn in E; [injection E as <-; right; split; [auto|lia]|destruct k; discriminate]. }
  destruct lock; cbn in *.
  - destruct H as (i & x & E & QX & O). assert (L : i < List.length pcs) by (apply nth_error_Some; congruence).
    exists i, x. split; [rewrite nth_error_app1; auto|]. split; auto. intros j w N EJ. destruct (G _ _ EJ) as [H|[-> _]]; eauto.
  - intros j w EJ. destruct (G _ _ EJ) as [H'|[-> _]]; eauto.
Qed.

Lemma entry_step : forall e es c c' ok, load_entry e c = (c', ok) ->
  if ok then forall r, loads_to c' es r -> loads_to c (e :: es) r else loads_to c (e :: es) None.
Proof.
  intros [name x] es c c' ok H. unfold load_entry in H. cbn [e_name e_content] in H. destruct x as [| |f].
  - injection H as <- <-. constructor.
  - destruct (String.eqb_spec name "unknown.yaml") as [->|N].
    + injection H as <- <-. intros r R. apply Loads_skip; [discriminate|auto].
    + cbn in H. injection H as <- <-. apply Loads_garbled. auto.
  - destruct (String.eqb_spec name "unknown.yaml") as [->|N].
    + injection H as <- <-. intros r R. apply Loads_skip; [discriminate|auto].
    + destruct ok; [intros r R; eapply Loads_file; eauto|eapply Loads_refused; eauto].
Qed.


Lemma run_inv : forall U s i x, inv U s -> nth_error (s_pcs s) i = Some x -> inv U (advance entries s i x).
Proof.
  intros U [done lock valid r h n pcs] i x I E. cbn [s_pcs] in E.
  inversion I as [D V R H N HD|D L N HD|D V N HD HC]; cbn [s_done s_lock s_valid s_res s_heap s_loads s_pcs] in *; subst.
  - (* nobody has loaded *)
    destruct lock.
    + destruct (Nat.eq_dec i i) as [_|]; [|congruence].
      assert (X : outside x \/ ~ outside x) by (destruct x; unfold outside; try (left; auto; fail); right; intros [Z|Z]; discriminate).
      destruct X as [X|X].
      * destruct X as [-> | ->]; cbn [advance].
        -- apply Inv_fresh; cbn; auto. change (held true outside (fun x => x = Check) (put i Lock pcs)).
           eapply held_step; [exact HD|exact E|left; auto|discriminate|right; auto].
        -- exact I.
      * destruct (held_one _ _ _ _ _ HD E X) as [-> O]. cbn [advance]. apply Inv_loading; cbn; auto. eapply others_but; eauto. cbn.
        repeat split; auto. exists empty_coll. auto.
    + assert (X := HD i x E). destruct X as [-> | ->]; cbn [advance].
      * apply Inv_fresh; cbn; auto. change (held false outside (fun x => x = Check) (put i Lock pcs)).
        eapply held_step; [exact HD|exact E|left; auto|discriminate|right; auto].
      * apply Inv_fresh; cbn; auto. change (held true outside (fun x => x = Check) (put i Check pcs)). eapply held_take; eauto.
  - (* one loads *)
    assert (X : outside x \/ ~ outside x) by (destruct x; unfold outside; try (left; auto; fail); right; intros [Z|Z]; discriminate).
    destruct X as [X|X].
    + assert (NL : ~ loader (St false true valid r h 1 pcs) x) by (destruct X as [-> | ->]; cbn; auto).
      destruct X as [-> | ->]; cbn [advance].
      * apply Inv_loading; cbn; auto. change (held true outside (loader (St false true valid r h 1 pcs)) (put i Lock pcs)).
        eapply held_step; [exact HD|exact E|left; auto|exact NL|right; auto].
      * exact I.
    + destruct (held_one _ _ _ _ _ HD E X) as [LX O]. destruct x; cbn in LX; try contradiction; cbn [advance].
      * destruct LX as (-> & -> & -> & c & -> & LT). destruct es as [|e es].
        -- apply Inv_loading; cbn; auto. eapply others_but; eauto. cbn. repeat split; auto. exists c. split; auto. left. split; auto. apply LT. constructor.
        -- cbn [nth]. destruct (load_entry e c) as [c' ok] eqn:LE. assert (ES := entry_step e es c c' ok LE). apply Inv_loading; cbn; auto.
           eapply others_but; eauto. destruct ok; cbn.
           ++ repeat split; auto. exists c'. split; auto.
           ++ repeat split; auto. exists c'. split; auto.
      * destruct LX as (-> & -> & c & -> & LT). apply Inv_loading; cbn; auto. eapply others_but; eauto. cbn. split; auto. exists c. auto.
      * destruct LX as (-> & c & -> & LT). apply Inv_loading; cbn; auto. eapply others_but; eauto. cbn. split; auto. exists c. auto.
      * destruct LX as (-> & c & -> & LT). apply Inv_done; cbn; auto.
        -- eapply others_but; eauto. intros j w NJ EJ. destruct (O j w NJ EJ) as [-> | ->]; unfold after; auto.
        -- exists c, []. repeat split; auto. intros f [].
  - (* loaded *)
    destruct lock.
    + assert (X : after r x \/ ~ after r x).
      { destruct x as [| | | | | | | | |o]; unfold after; try (left; auto; fail); try (right; intros [Z|[Z|[Z|Z]]]; discriminate).
        destruct HD as (k & z & EK & QZ & O). destruct (Nat.eq_dec i k) as [->|NK]; [rewrite E in EK; injection EK as <-; destruct QZ; discriminate|].
        left. apply (O _ _ NK E). }
      destruct X as [X|X].
      * assert (NQ : ~ (x = Check \/ x = Unlock)) by (intros [-> | ->]; destruct X as [Z|[Z|[Z|Z]]]; discriminate).
        assert (K : forall y, after r y -> inv U (St true true true r h 1 (put i y pcs))).
        { intros y Y. apply Inv_done; cbn; auto.
          change (held true (after r) (fun x => x = Check \/ x = Unlock) (put i y pcs)). eapply held_step; eauto. }
        destruct X as [-> | [-> | [-> | ->]]]; cbn [advance]; try apply K; unfold after; auto.
      * destruct (held_one _ _ _ _ _ HD E X) as [[-> | ->] O]; cbn [advance].
        -- apply Inv_done; cbn; auto. eapply others_but; eauto.
        -- apply Inv_done; cbn; auto. change (all (after r) (put i Read pcs)). apply others_put; auto. unfold after. auto.
    + assert (X := HD i x E). assert (K : forall y, after r y -> inv U (St true false true r h 1 (put i y pcs))).
      { intros y Y. apply Inv_done; cbn; auto. apply others_put; auto. intros j w _ EJ. eauto. }
      destruct X as [-> | [-> | [-> | ->]]]; cbn [advance]; try (apply K; unfold after; auto; fail).
      * apply Inv_done; cbn; auto. eapply others_but; eauto.
      * exact I.
Qed.

Lemma happen_inv : forall U s e, inv U s -> (forall i f, e = Use i f -> U f) -> inv U (happen entries s e).
Proof.
  intros U s e I HU. destruct e as [|i|i f]; cbn [happen].
  - destruct s as [done lock valid r h n pcs]. inversion I as [D V R H N HD|D L N HD|D V N HD HC]; cbn [s_done s_lock s_valid s_res s_heap s_loads s_pcs] in *.
    + apply Inv_fresh; cbn; auto. apply held_new; auto. left. auto.
    + apply Inv_loading; cbn; auto. subst. change (held true outside (loader (St false true valid r h 1 (pcs ++ [Start]))) (pcs ++ [Start])).
      apply held_new; [exact HD|]. left. auto.
    + apply Inv_done; cbn; auto. apply held_new; auto. left. auto.
  - destruct (nth_error (s_pcs s) i) as [x|] eqn:E; auto. apply run_inv; auto.
  - destruct (nth_error (s_pcs s) i) as [x|] eqn:E; auto. destruct x; auto. destruct o as [r'|]; auto. destruct r' as [| |p]; auto.
    destruct s as [done lock valid r h n pcs]. inversion I as [D V R H N HD|D L N HD|D V N HD HC]; cbn [s_done s_lock s_valid s_res s_heap s_loads s_pcs] in *; subst.
    + exfalso. destruct lock.
      * destruct (held_one _ _ _ _ _ HD E) as [X _]; [intros [X|X]; discriminate|discriminate].
      * destruct (HD _ _ E); discriminate.
    + exfalso. destruct (held_one _ _ _ _ _ HD E) as [X _]; [intros [X|X]; discriminate|destruct X].
    + assert (A : RPtr p = r).
      { destruct lock.
        - destruct HD as (k & z & EK & QZ & O). destruct (Nat.eq_dec i k) as [->|NK]; [rewrite E in EK; injection EK as <-; destruct QZ; discriminate|].
          destruct (O _ _ NK E) as [Z|[Z|[Z|Z]]]; try discriminate. injection Z as ->. auto.
        - destruct (HD _ _ E) as [Z|[Z|[Z|Z]]]; try discriminate. injection Z as ->. auto. }
      destruct HC as (c & us & HU' & -> & R). apply Inv_done; cbn; auto.
      destruct R as [[-> R]|[-> R]]; [|discriminate]. injection A as ->. cbn [nth put].
      exists c, (us ++ [f]). split; [|split; auto].
      * intros g G. apply in_app_iff in G. destruct G as [G|[<-|[]]]; eauto.
      * unfold load_all at 2. rewrite fold_left_app. reflexivity.
Qed.

Lemma schedule_inv : forall evs, inv (used evs) (schedule entries initial evs).
Proof.
  intros evs. unfold schedule.
  assert (G : forall l (U : option file -> Prop) s, inv U s -> (forall i f, In (Use i f) l -> U f) -> inv U (fold_left (happen entries) l s)).
  { induction l as [|e l IH]; intros U s I HU; cbn; auto. apply IH; [apply happen_inv; auto|]; intros i f H; [apply (HU i); left; auto|apply (HU i); right; auto]. }
  apply G.
  - apply Inv_fresh; auto. cbn. intros j y E. destruct j; discriminate.
  - intros i f H. exists i. auto.
Qed.

(** what a goroutine still has to do *)
Definition todo (x : pc) : nat :=
  match x with
  | Start => 9 + List.length entries | Lock => 8 + List.length entries | Check => 7 + List.length entries
  | Loading es _ => 6 + List.length es | Store _ => 5 | SetValid => 4 | SetDone => 3 | Unlock => 2 | Read => 1
  | Returned _ => 0
  end.
Definition work (s : st) : nat := list_sum (map todo (s_pcs s)).
Lemma work_put : forall pcs i x y, nth_error pcs i = Some x -> todo y < todo x ->
  list_sum (map todo (put i y pcs)) < list_sum (map todo pcs).
Proof.
  intros pcs. induction pcs as [|z pcs IH]; intros i x y E L; [destruct i; discriminate|]. destruct i as [|i]; cbn in *.
  - injection E as ->. unfold list_sum in *. lia.
  - assert (X := IH _ _ _ E L). unfold list_sum in *. lia.
Qed.
Lemma advance_work : forall s i x, nth_error (s_pcs s) i = Some x -> (forall o, x <> Returned o) -> (x = Lock -> s_lock s = false) ->
  work (advance entries s i x) < work s.
Proof.
  intros [done lock valid r h n pcs] i x E NR NL. cbn [s_pcs s_lock] in *. unfold work.
  destruct x as [| | |es p|r'| | | | |o]; cbn [advance].
  - cbn [s_pcs]. eapply work_put; [exact E|]. destruct done; cbn; lia.
  - rewrite (NL eq_refl). cbn [s_pcs]. eapply work_put; [exact E|cbn; lia].
  - destruct done; cbn [s_pcs]; (eapply work_put; [exact E|cbn; lia]).
  - destruct es as [|e es]; [cbn [s_pcs]; (eapply work_put; [exact E|cbn; lia])|].
    destruct (load_entry e _) as [c ok]. cbn [s_pcs]. eapply work_put; [exact E|]. destruct ok; cbn; lia.
  - cbn [s_pcs]. eapply work_put; [exact E|cbn; lia].
  - cbn [s_pcs]. eapply work_put; [exact E|cbn; lia].
  - cbn [s_pcs]. eapply work_put; [exact E|cbn; lia].
  - cbn [s_pcs]. eapply work_put; [exact E|cbn; lia].
  - cbn [s_pcs]. eapply work_put; [exact E|cbn; lia].
  - destruct (NR o). auto.
Qed.

Lemma can_go : forall U s, inv U s -> ~ finished s -> exists i x, nth_error (s_pcs s) i = Some x /\ (forall o, x <> Returned o) /\ (x = Lock -> s_lock s = false).
Proof.
  intros U [done lock valid r h n pcs] I NF. unfold finished in NF. cbn [s_pcs] in NF.
  inversion I as [D V R H N HD|D L N HD|D V N HD HC]; cbn [s_done s_lock s_valid s_res s_heap s_loads s_pcs] in *.
  2:{ destruct HD as (i & x & E & LX & O). exists i, x. split; auto. split; [intros o Z; subst x; cbn in LX; exact LX|intros Z; subst x; destruct LX]. }
  all: destruct lock; [destruct HD as (i & x & E & LX & O); exists i, x; split; auto;
    assert (Z : x = Check \/ x = Unlock) by (cbv beta in LX; auto); destruct Z as [-> | ->]; split; [intros o|..]; discriminate|].
  all: assert (X : exists i x, nth_error pcs i = Some x /\ forall o, x <> Returned o).
  1,3: clear - NF; induction pcs as [|x pcs IH]; [destruct NF; intros x []|].
  1,2: assert (RX : (exists o, x = Returned o) \/ forall o, x <> Returned o) by (destruct x; try (right; intros o; discriminate); left; eauto);
     destruct RX as [RX|RX]; [|exists 0, x; auto];
     destruct IH as (i & y & E & NR); [intros F; apply NF; intros y [<-|Y]; auto|exists (S i), y; auto].
  all: destruct X as (i & x & E & NR); exists i, x; auto.
Qed.

Lemma can_finish : forall U s, inv U s -> exists is, finished (schedule entries s (map Run is)).
Proof.
  intros U s. remember (work s) as w eqn:W. revert s W. induction w as [w IH] using lt_wf_ind. intros s W I.
  assert (F : finished s \/ ~ finished s).
  { unfold finished. clear. induction (s_pcs s) as [|x l IH]; [left; intros x []|].
    assert (RX : (exists o, x = Returned o) \/ ~ exists o, x = Returned o) by (destruct x; try (right; intros [o H]; discriminate); left; eauto).
    destruct RX as [RX|RX]; [|right; intros H; apply RX, H; left; auto]. destruct IH as [IH|IH]; [left; intros y [<-|Y]; auto|right; intros H; apply IH; intros y Y; apply H; right; auto]. }
  destruct F as [F|F]; [exists []; exact F|]. destruct (can_go U s I F) as (i & x & E & NR & NL).
  assert (LW := advance_work s i x E NR NL). subst w.
  destruct (IH _ LW (advance entries s i x) eq_refl) as [is H]; [apply run_inv; auto|].
  exists (i :: is). cbn. rewrite E. exact H.
Qed.

Lemma inv_returned : forall U s i o, inv U s -> nth_error (s_pcs s) i = Some (Returned o) ->
  o = Got (s_res s) /\ s_loads s = 1 /\ exists c us, (forall f, In f us -> U f) /\ s_heap s = [load_all us c] /\
     (s_res s = RPtr 0 /\ loads_to empty_coll entries (Some c) \/ s_res s = RErr /\ loads_to empty_coll entries None).
Proof.
  intros U [done lock valid r h n pcs] i o I E. inversion I as [D V R H N HD|D L N HD|D V N HD HC]; cbn [s_done s_lock s_valid s_res s_heap s_loads s_pcs] in *; subst.
  - exfalso. destruct lock.
    + destruct (held_one _ _ _ _ _ HD E) as [X _]; [intros [X|X]; discriminate|discriminate].
    + destruct (HD _ _ E); discriminate.
  - exfalso. destruct (held_one _ _ _ _ _ HD E) as [X _]; [intros [X|X]; discriminate|destruct X].
  - split; [|split; auto]. destruct lock.
    + destruct HD as (k & z & EK & QZ & O). destruct (Nat.eq_dec i k) as [->|NK]; [rewrite E in EK; injection EK as <-; destruct QZ; discriminate|].
      destruct (O _ _ NK E) as [Z|[Z|[Z|Z]]]; try discriminate. congruence.
    + destruct (HD _ _ E) as [Z|[Z|[Z|Z]]]; try discriminate. congruence.
Qed.

Lemma inv_loads : forall U s, inv U s -> s_loads s <= 1.
Proof. intros U s I. destruct I; lia. Qed.
End Once.

Lemma loads_fun : forall c es a b, loads_to c es a -> loads_to c es b -> a = b.
Proof.
  intros c es a b H. revert b. induction H; intros b K; inversion K; subst; auto; try contradiction; try congruence.
  match goal with H1 : load (Some f) c = _, H2 : load (Some f) c = _ |- _ => rewrite H1 in H2; injection H2 as <- end. auto.
Qed.
Lemma loads_history : forall c es r d, loads_to c es (Some d) -> r = d -> exists fs, d = load_all fs c.
Proof.
  intros c es r d H _. remember (Some d) as x eqn:X. revert d X.
  induction H as [c|c x es r' N H IH|c name f c' es r' N L H IH| | |]; intros d X; try discriminate.
  - injection X as ->. exists []. reflexivity.
  - apply IH. auto.
  - destruct (IH d X) as [fs ->]. exists (Some f :: fs). unfold load_all. cbn [fold_left]. rewrite L. reflexivity.
Qed.
