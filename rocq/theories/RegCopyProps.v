(** C80: registries and their copies.  Proofs and theorems. *)

From Coq Require Import String Bool List Lia PeanoNat.
From Verif Require Import RegCopyModel RegCopySpec.
Import ListNotations.
Local Open Scope nat_scope.

Lemma put_nth : forall {T} n (x : T) l i, nth_error (put n x l) i = if Nat.eqb n i then (if i <? List.length l then Some x else None) else nth_error l i.
Proof.
  intros T. induction n as [|n IH]; intros x [|y l] [|i]; cbn; try reflexivity.
  - destruct (n =? i); reflexivity.
  - rewrite IH. destruct (n =? i); reflexivity.
Qed.
Lemma put_length : forall {T} n (x : T) l, List.length (put n x l) = List.length l.
Proof. intros T. induction n as [|n IH]; intros x [|y l]; cbn; try reflexivity. rewrite IH. reflexivity. Qed.
Lemma put_nth_d : forall {T} n (x d : T) l i, n < List.length l -> nth i (put n x l) d = if Nat.eqb n i then x else nth i l d.
Proof.
  intros T. induction n as [|n IH]; intros x d [|y l] [|i] L; cbn in *; try reflexivity; try lia. apply IH. lia.
Qed.

Scheme linked_mut := Minimality for linked Sort Prop
with has_decoders_mut := Minimality for has_decoders Sort Prop.
Combined Scheme linked_ind2 from linked_mut, has_decoders_mut.

Section Registries.
Context {D K : Type}.
Implicit Types (h : list (rcall D K)) (c : rcall D K).

Lemma run_snoc : forall h c, rrun (h ++ [c]) = fst (rstep (rrun h) c).
Proof. intros h c. unfold rrun. rewrite fold_left_app. reflexivity. Qed.
Lemma made_snoc : forall h c, made_by (h ++ [c]) = made_by h + match c with RNew _ | RCopy _ => 1 | _ => 0 end.
Proof. induction h as [|k h IH]; intros c; [destruct c; reflexivity|]. cbn [app made_by]. rewrite IH. destruct k; lia. Qed.
Lemma proper_snoc : forall h c, proper (h ++ [c]) -> proper h /\ forall r, about c = Some r -> r < made_by h.
Proof.
  intros h c P. split.
  - intros b k a r -> A. apply (P b k (a ++ [c])%list r); [|exact A]. rewrite <- app_assoc. reflexivity.
  - intros r A. apply (P h c [] r eq_refl A).
Qed.

Lemma regs_made : forall h, proper h -> List.length (w_regs (rrun h)) = made_by h.
Proof.
  induction h as [|c h IH] using rev_ind; intros P; [reflexivity|]. apply proper_snoc in P. destruct P as [P A]. specialize (IH P).
  rewrite run_snoc, made_snoc. destruct c as [s|r|r k|r u d]; cbn [rstep].
  - cbn. rewrite app_length. cbn. lia.
  - specialize (A r eq_refl). destruct (nth_error (w_regs (rrun h)) r) eqn:E; [|apply nth_error_None in E; lia]. cbn. rewrite app_length. cbn. lia.
  - destruct (nth_error (w_regs (rrun h)) r); cbn; rewrite ?put_length; lia.
  - destruct (nth_error (w_regs (rrun h)) r) as [x|]; cbn; [|lia]. destruct (x_decs x); [destruct (entry _ u)|]; cbn; rewrite ?put_length; lia.
Qed.

Definition dec h (r : nat) : option nat := match nth_error (w_regs (rrun h)) r with Some x => x_decs x | None => None end.
Definition ent h (r : nat) (url : string) : option (option D) := match nth_error (w_regs (rrun h)) r with Some x => entry (map_of (rrun h) x) url | None => None end.
Lemma ent_dec : forall h r url, ent h r url = match dec h r with Some m => entry (nth m (w_maps (rrun h)) []) url | None => None end.
Proof. intros h r url. unfold ent, dec, map_of. destruct (nth_error _ r) as [x|]; [|reflexivity]. destruct (x_decs x); reflexivity. Qed.

Lemma dec_snoc : forall h c r, proper (h ++ [c]) -> r < made_by h ->
  dec (h ++ [c]) r = match c with
    | RSetDecoder r0 _ _ => if Nat.eqb r0 r then match dec h r with Some m => Some m | None => Some (List.length (w_maps (rrun h))) end else dec h r
    | _ => dec h r
    end.
Proof.
  intros h c r P L. apply proper_snoc in P. destruct P as [P A]. pose proof (regs_made h P) as LEN. unfold dec. rewrite run_snoc.
  destruct c as [s|a|a k|a u d]; cbn [rstep].
  - cbn. rewrite nth_error_app1 by lia. reflexivity.
  - destruct (nth_error (w_regs (rrun h)) a) eqn:E; cbn; [|reflexivity]. rewrite nth_error_app1 by lia. reflexivity.
  - destruct (nth_error (w_regs (rrun h)) a) as [x|] eqn:E; cbn; [|reflexivity]. rewrite put_nth. destruct (Nat.eqb_spec a r) as [->|]; [|reflexivity].
    destruct (Nat.ltb_spec r (List.length (w_regs (rrun h)))); [|lia]. rewrite E. reflexivity.
  - specialize (A a eq_refl). destruct (nth_error (w_regs (rrun h)) a) as [x|] eqn:E; [|apply nth_error_None in E; lia].
    destruct (x_decs x) as [m|] eqn:X.
    + assert (S : w_regs (fst (match entry (map_of (rrun h) x) u with Some _ => (rrun h, false) | None => (World (put m ((u, d) :: map_of (rrun h) x) (w_maps (rrun h))) (w_regs (rrun h)), true) end)) = w_regs (rrun h))
        by (destruct (entry _ u); reflexivity).
      rewrite S. destruct (Nat.eqb_spec a r) as [->|]; [|reflexivity]. rewrite E, X. reflexivity.
    + cbn. rewrite put_nth. destruct (Nat.eqb_spec a r) as [->|]; [|reflexivity]. destruct (Nat.ltb_spec r (List.length (w_regs (rrun h)))); [|lia]. rewrite E, X. reflexivity.
Qed.
Lemma dec_made : forall h c, proper (h ++ [c]) -> dec (h ++ [c]) (made_by h) = match c with RCopy a => dec h a | _ => None end.
Proof.
  intros h c P. apply proper_snoc in P. destruct P as [P A]. pose proof (regs_made h P) as LEN. unfold dec. rewrite run_snoc.
  assert (N : nth_error (w_regs (rrun h)) (made_by h) = None) by (apply nth_error_None; lia).
  destruct c as [s|a|a k|a u d]; cbn [rstep].
  - cbn. rewrite nth_error_app2 by lia. rewrite LEN, Nat.sub_diag. reflexivity.
  - destruct (nth_error (w_regs (rrun h)) a) eqn:E; cbn; [rewrite nth_error_app2 by lia; rewrite LEN, Nat.sub_diag; reflexivity|]. rewrite N. reflexivity.
  - destruct (nth_error (w_regs (rrun h)) a) as [x|] eqn:E; cbn; [|rewrite N; reflexivity]. rewrite put_nth. specialize (A a eq_refl).
    destruct (Nat.eqb_spec a (made_by h)); [lia|]. rewrite N. reflexivity.
  - specialize (A a eq_refl). destruct (nth_error (w_regs (rrun h)) a) as [x|] eqn:E; cbn; [|rewrite N; reflexivity].
    destruct (x_decs x); [destruct (entry _ u)|]; cbn; try (rewrite N; reflexivity). rewrite put_nth. destruct (Nat.eqb_spec a (made_by h)); [lia|]. rewrite N. reflexivity.
Qed.
Lemma dec_beyond : forall h r, proper h -> made_by h <= r -> dec h r = None.
Proof. intros h r P L. unfold dec. assert (N : nth_error (w_regs (rrun h)) r = None) by (apply nth_error_None; rewrite regs_made; assumption). rewrite N. reflexivity. Qed.
Lemma maps_grow : forall h c, List.length (w_maps (rrun h)) <= List.length (w_maps (rrun (h ++ [c]))).
Proof.
  intros h c. rewrite run_snoc. destruct c as [s|a|a k|a u d]; cbn [rstep]; try (destruct (nth_error _ a) as [x|]); cbn; try lia.
  destruct (x_decs x); [destruct (entry _ u)|]; cbn; rewrite ?put_length, ?app_length; cbn; lia.
Qed.
Lemma dec_bound : forall h r m, proper h -> dec h r = Some m -> m < List.length (w_maps (rrun h)).
Proof.
  induction h as [|c h IH] using rev_ind; intros r m P E; [destruct r; discriminate|]. pose proof P as P'. apply proper_snoc in P'. destruct P' as [P1 A].
  pose proof (maps_grow h c) as G. destruct (Nat.lt_ge_cases r (made_by h)) as [L|L].
  - rewrite (dec_snoc h c r P L) in E. destruct c as [s|a|a k|a u d]; try (apply IH in E; [lia|exact P1]).
    destruct (Nat.eqb_spec a r) as [->|]; [|apply IH in E; [lia|exact P1]]. destruct (dec h r) as [m'|] eqn:E'; injection E as <-; [apply IH in E'; [lia|exact P1]|].
    rewrite run_snoc. cbn [rstep]. unfold dec in E'. pose proof (regs_made h P1). destruct (nth_error (w_regs (rrun h)) r) as [x|] eqn:X; [|apply nth_error_None in X; lia].
    rewrite E'. cbn. rewrite app_length. cbn. lia.
  - destruct (Nat.eq_dec r (made_by h)) as [->|N].
    + rewrite (dec_made h c P) in E. destruct c as [s|a|a k|a u d]; try discriminate. apply IH in E; [lia|exact P1].
    + rewrite dec_beyond in E; [discriminate|exact P|]. rewrite made_snoc. destruct c; lia.
Qed.

(** ** sharing *)

Definition shares h (a b : nat) : Prop := (a = b /\ a < made_by h) \/ exists m, dec h a = Some m /\ dec h b = Some m.
Lemma dec_later : forall h c r m, proper (h ++ [c]) -> dec h r = Some m -> dec (h ++ [c]) r = Some m.
Proof.
  intros h c r m P E. pose proof (proj1 (proper_snoc h c P)) as P1. assert (L : r < made_by h) by (destruct (Nat.lt_ge_cases r (made_by h)); [assumption|rewrite dec_beyond in E; [discriminate|assumption|assumption]]).
  rewrite (dec_snoc h c r P L). destruct c; try exact E. rewrite E. destruct (Nat.eqb _ r); reflexivity.
Qed.
Lemma linked_sound : (forall h a b, linked h a b -> proper h -> shares h a b) /\ (forall h a, has_decoders h a -> proper h -> exists m, dec h a = Some m).
Proof.
  apply linked_ind2.
  - intros h r L P. left. auto.
  - intros h c a b _ IH P. pose proof (proj1 (proper_snoc h c P)) as P1. destruct (IH P1) as [[-> L]|(m & E1 & E2)].
    + left. split; [reflexivity|]. rewrite made_snoc. lia.
    + right. exists m. split; apply dec_later; assumption.
  - intros h a b _ IH1 _ IH2 P. pose proof (proj1 (proper_snoc _ _ P)) as P1. destruct (IH2 P1) as (m & E). right. exists m. rewrite (dec_made _ _ P). split; [|exact E].
    apply dec_later; [exact P|]. destruct (IH1 P1) as [[<- _]|(m' & E1 & E2)]; congruence.
  - intros h a b _ IH P. destruct (IH P) as [[-> L]|(m & E1 & E2)]; [left; auto|right; exists m; auto].
  - intros h r u d L P. rewrite (dec_snoc _ _ r P L), Nat.eqb_refl. destruct (dec h r); eauto.
  - intros h a b _ IH1 _ IH2 P. destruct (IH1 P) as (m & E). destruct (IH2 P) as [[<- _]|(m' & _ & E2)]; eauto.
  - intros h c r _ IH P. destruct (IH (proj1 (proper_snoc _ _ P))) as (m & E). exists m. apply dec_later; assumption.
Qed.
Lemma linked_complete : forall h, proper h -> (forall a b, shares h a b -> linked h a b) /\ (forall a m, dec h a = Some m -> has_decoders h a).
Proof.
  induction h as [|c h IH] using rev_ind; intros P.
  { split; [intros a b [[_ L]|(m & E & _)]; [cbn in L; lia|destruct a; discriminate]|intros a m E; destruct a; discriminate]. }
  pose proof (proper_snoc h c P) as [P1 A]. destruct (IH P1) as [S H]. clear IH.
  assert (IN : forall r m, dec (h ++ [c]) r = Some m -> (r < made_by h /\ (dec h r = Some m \/ (dec h r = None /\ m = List.length (w_maps (rrun h)) /\ exists u d, c = RSetDecoder r u d))) \/
                 (r = made_by h /\ exists a, c = RCopy a /\ dec h a = Some m)).
  { intros r m E. destruct (Nat.lt_ge_cases r (made_by h)) as [L|L].
    - left. split; [exact L|]. rewrite (dec_snoc h c r P L) in E. destruct c as [s|a|a k|a u d]; auto. destruct (Nat.eqb_spec a r) as [->|]; auto.
      destruct (dec h r); [auto|]. injection E as <-. right. eauto.
    - right. destruct (Nat.eq_dec r (made_by h)) as [->|N].
      + split; [reflexivity|]. rewrite (dec_made h c P) in E. destruct c as [s|a|a k|a u d]; try discriminate. eauto.
      + rewrite dec_beyond in E; [discriminate|exact P|]. rewrite made_snoc. destruct c; lia. }
  assert (OLD : forall r m, dec h r = Some m -> r < made_by h) by (intros r m E; destruct (Nat.lt_ge_cases r (made_by h)); [assumption|rewrite dec_beyond in E; [discriminate|assumption|assumption]]).
  split.
  - intros a b [[-> L]|(m & E1 & E2)]; [apply L_self; exact L|].
    destruct (IN a m E1) as [[L1 [D1|(D1 & M1 & u1 & d1 & C1)]]|[-> (x1 & C1 & D1)]], (IN b m E2) as [[L2 [D2|(D2 & M2 & u2 & d2 & C2)]]|[-> (x2 & C2 & D2)]].
    + apply L_later, S. right. eauto.
    + subst m. apply dec_bound in D1; [lia|exact P1].
    + subst c. apply L_copy; [apply S; right; eauto|eapply H; eauto].
    + subst m. apply dec_bound in D2; [lia|exact P1].
    + assert (a = b) by congruence. subst b. apply L_self. rewrite made_snoc. lia.
    + congruence.
    + subst c. apply L_sym, L_copy; [apply S; right; eauto|eapply H; eauto].
    + congruence.
    + apply L_self. rewrite made_snoc. subst c. lia.
  - intros a m E. destruct (IN a m E) as [[L [D1|(D1 & M1 & u & d & ->)]]|[-> (x & -> & D1)]].
    + apply H_later. eapply H; eauto.
    + apply H_set. exact L.
    + eapply H_link; [apply H_later; eapply H; eauto|]. apply L_copy; [apply L_self; eapply OLD; eauto|eapply H; eauto].
Qed.
Lemma linked_iff : forall h a b, proper h -> linked h a b <-> shares h a b.
Proof. intros h a b P. split; [intros L; apply linked_sound; assumption|apply linked_complete; assumption]. Qed.
Lemma linked_made : forall h a b, proper h -> linked h a b -> a < made_by h /\ b < made_by h.
Proof.
  intros h a b P L. apply linked_iff in L; [|exact P]. destruct L as [[-> L]|(m & E1 & E2)]; [auto|].
  split; match goal with |- ?r < _ => destruct (Nat.lt_ge_cases r (made_by h)); [assumption|rewrite dec_beyond in * by assumption; discriminate] end.
Qed.
Lemma linked_old : forall h c a b, proper (h ++ [c]) -> a < made_by h -> b < made_by h -> linked (h ++ [c]) a b <-> linked h a b.
Proof.
  intros h c a b P LA LB. split; [|apply L_later]. pose proof (proj1 (proper_snoc _ _ P)) as P1. rewrite !linked_iff by assumption.
  intros [[-> _]|(m & E1 & E2)]; [left; auto|]. rewrite (dec_snoc h c a P LA) in E1. rewrite (dec_snoc h c b P LB) in E2.
  destruct c as [s|x|x k|x u d]; try (right; eauto; fail).
  destruct (Nat.eqb_spec x a) as [->|], (Nat.eqb_spec a b) as [->|]; try (left; auto; fail).
  - destruct (Nat.eqb_spec a b); [congruence|]. destruct (dec h a) eqn:X; [right; exists m; split; congruence|]. assert (m = List.length (w_maps (rrun h))) by congruence. pose proof (dec_bound _ _ _ P1 E2). lia.
  - destruct (Nat.eqb_spec x b) as [->|]; [|right; eauto]. destruct (dec h b) eqn:X; [right; exists m; split; congruence|]. assert (m = List.length (w_maps (rrun h))) by congruence. pose proof (dec_bound _ _ _ P1 E1). lia.
Qed.

(** ** what is found *)

Lemma ent_old : forall h c r url, proper (h ++ [c]) -> r < made_by h -> (forall a u d, c <> RSetDecoder a u d) -> ent (h ++ [c]) r url = ent h r url.
Proof.
  intros h c r url P L N. rewrite !ent_dec, (dec_snoc h c r P L).
  assert (M : w_maps (rrun (h ++ [c])) = w_maps (rrun h)).
  { rewrite run_snoc. destruct c as [s|a|a k|a u d]; cbn [rstep]; [reflexivity|destruct (nth_error _ a); reflexivity..|]. destruct (N a u d eq_refl). }
  rewrite M. destruct c as [s|a|a k|a u d]; try reflexivity. destruct (N a u d eq_refl).
Qed.
Lemma ent_shared : forall h a b url, shares h a b -> ent h a url = ent h b url.
Proof. intros h a b url [[-> _]|(m & E1 & E2)]; [reflexivity|]. rewrite !ent_dec, E1, E2. reflexivity. Qed.
Lemma ent_set : forall h a u d r url, proper (h ++ [RSetDecoder a u d]) -> r < made_by h ->
  (shares h a r -> ent (h ++ [RSetDecoder a u d]) r url = if String.eqb u url then match ent h r url with Some x => Some x | None => Some d end else ent h r url) /\
  (~ shares h a r -> ent (h ++ [RSetDecoder a u d]) r url = ent h r url).
Proof.
  intros h a u d r url P L. pose proof (proper_snoc _ _ P) as [P1 A]. specialize (A a eq_refl). pose proof (regs_made h P1) as LEN.
  assert (X : exists x, nth_error (w_regs (rrun h)) a = Some x) by (destruct (nth_error (w_regs (rrun h)) a) eqn:E; [eauto|apply nth_error_None in E; lia]). destruct X as (x & X).
  assert (DA : dec h a = x_decs x) by (unfold dec; rewrite X; reflexivity).
  rewrite !ent_dec, (dec_snoc _ _ r P L), run_snoc. cbn [rstep]. rewrite X. destruct (x_decs x) as [m|] eqn:XM.
  - assert (MB : m < List.length (w_maps (rrun h))) by (eapply dec_bound; eauto). unfold map_of. rewrite XM.
    assert (DR : (if Nat.eqb a r then match dec h r with Some m => Some m | None => Some (List.length (w_maps (rrun h))) end else dec h r) = dec h r) by (destruct (Nat.eqb_spec a r) as [->|]; [rewrite DA|]; reflexivity).
    rewrite DR. assert (SH : shares h a r <-> dec h r = Some m).
    { split; [intros [[-> _]|(m' & E1 & E2)]; congruence|]. intros E. right. eauto. }
    destruct (entry (nth m (w_maps (rrun h)) []) u) as [e|] eqn:EN; cbn [fst w_maps].
    + split; [|reflexivity]. intros S. apply SH in S. rewrite S. destruct (String.eqb_spec u url) as [->|]; [rewrite EN|]; reflexivity.
    + split; intros S.
      * apply SH in S. rewrite S, put_nth_d, Nat.eqb_refl by exact MB. cbn [entry]. destruct (String.eqb_spec u url) as [->|]; [rewrite EN|]; reflexivity.
      * destruct (dec h r) as [m'|] eqn:E; [|reflexivity]. rewrite put_nth_d by exact MB. destruct (Nat.eqb_spec m m') as [->|]; [destruct S; apply SH; reflexivity|reflexivity].
  - cbn [fst w_maps]. split; intros S.
    + assert (a = r) by (destruct S as [[-> _]|(m' & E1 & E2)]; [reflexivity|congruence]). subst r. rewrite Nat.eqb_refl, DA.
      rewrite app_nth2, Nat.sub_diag by lia. cbn. reflexivity.
    + destruct (Nat.eqb_spec a r) as [->|]; [destruct S; left; auto|]. destruct (dec h r) as [m'|] eqn:E; [|reflexivity]. rewrite app_nth1; [reflexivity|]. eapply dec_bound; eauto.
Qed.

Lemma set_in : forall h r u d, proper h -> In (RSetDecoder r u d) h -> r < made_by h /\ has_decoders h r.
Proof.
  induction h as [|c h IH] using rev_ind; intros r u d P I; [destruct I|]. pose proof (proper_snoc _ _ P) as [P1 A]. apply in_app_or in I. destruct I as [I|[->|[]]].
  - destruct (IH r u d P1 I) as [L H]. split; [rewrite made_snoc; lia|apply H_later, H].
  - specialize (A r eq_refl). split; [rewrite made_snoc; lia|apply H_set, A].
Qed.
Lemma snoc_split : forall {T} (h : list T) (c : T) before x after, (h ++ [c])%list = (before ++ x :: after)%list ->
  (before = h /\ x = c /\ after = []) \/ exists after', after = (after' ++ [c])%list /\ h = (before ++ x :: after')%list.
Proof.
  intros T h c before x after E. destruct after as [|y after] using rev_ind.
  - left. apply app_inj_tail in E. destruct E as [-> ->]. auto.
  - right. clear IHafter. rewrite app_comm_cons, app_assoc in E. apply app_inj_tail in E. destruct E as [-> ->]. exists after. auto.
Qed.
Lemma first_old : forall h c r url d, proper (h ++ [c]) -> r < made_by h ->
  first_registered (h ++ [c]) r url d <-> first_registered h r url d \/
    (exists a, c = RSetDecoder a url d /\ linked h a r /\ forall r2 d2, In (RSetDecoder r2 url d2) h -> ~ linked h r2 r).
Proof.
  intros h c r url d P L. pose proof (proper_snoc _ _ P) as [P1 A]. split.
  - intros (before & r' & after & E & LK & N). apply snoc_split in E. destruct E as [(-> & <- & ->)|(after' & -> & ->)].
    + right. exists r'. split; [reflexivity|]. specialize (A r' eq_refl). split; [apply linked_old in LK; assumption|]. intros r2 d2 I LK2. apply (N r2 d2 I), L_later, LK2.
    + left. exists before, r', after'. split; [reflexivity|]. destruct (set_in _ r' url d P1) as [L' _]; [apply in_or_app; right; left; reflexivity|].
      split; [apply linked_old in LK; assumption|]. intros r2 d2 I LK2. apply (N r2 d2 I), L_later, LK2.
  - assert (NN : forall before, incl before h -> (forall r2 d2, In (RSetDecoder r2 url d2) before -> ~ linked h r2 r) -> forall r2 d2, In (RSetDecoder r2 url d2) before -> ~ linked (h ++ [c]) r2 r).
    { intros before I N r2 d2 I2 LK. apply (N r2 d2 I2). apply linked_old in LK; try assumption. destruct (set_in h r2 url d2 P1); auto. }
    intros [(before & r' & after & -> & LK & N)|(a & -> & LK & N)].
    + exists before, r', (after ++ [c])%list. split; [rewrite <- app_assoc; reflexivity|]. split; [apply L_later, LK|]. apply NN; [|exact N]. intros y Y. apply in_or_app. auto.
    + exists h, a, []. split; [reflexivity|]. split; [apply L_later, LK|]. apply NN; [intros y Y; exact Y|exact N].
Qed.
Lemma ent_first : forall h, proper h -> forall r url, r < made_by h -> forall d, ent h r url = Some d <-> first_registered h r url d.
Proof.
  induction h as [|c h IH] using rev_ind; intros P r url L d; [cbn in L; lia|]. pose proof (proper_snoc _ _ P) as [P1 A]. specialize (IH P1).
  destruct (Nat.lt_ge_cases r (made_by h)) as [LR|LR].
  - rewrite (first_old h c r url d P LR), <- (IH r url LR).
    assert (NONE : ent h r url = None <-> forall r2 d2, In (RSetDecoder r2 url d2) h -> ~ linked h r2 r).
    { split.
      - intros E r2 d2 I LK. apply linked_iff in LK; [|exact P1].
        (* the first of those registrations *)
        assert (F : exists d0, first_registered h r url d0).
        { assert (DEC : forall l, incl l h -> (exists before r' d0 after, l = (before ++ RSetDecoder r' url d0 :: after)%list /\ shares h r' r /\ forall r3 d3, In (RSetDecoder r3 url d3) before -> ~ shares h r3 r) \/
                          forall r3 d3, In (RSetDecoder r3 url d3) l -> ~ shares h r3 r).
          { induction l as [|k l IHl]; intros IC; [right; intros ? ? []|].
            assert (DK : (exists r' d0, k = RSetDecoder r' url d0 /\ shares h r' r) \/ (forall r' d0, k = RSetDecoder r' url d0 -> ~ shares h r' r)).
            { destruct k as [s|x|x y|x u y]; try (right; discriminate). destruct (string_dec u url) as [->|NU]; [|right; intros r' d0 [= _ X _]; congruence].
              assert (SD : shares h x r \/ ~ shares h x r).
              { destruct (Nat.eq_dec x r) as [->|NX]; [left; left; auto|]. unfold shares. destruct (dec h x) as [m|]; [|right; intros [[X _]|(m & X & _)]; congruence].
                destruct (dec h r) as [m'|]; [|right; intros [[X _]|(m' & _ & X)]; congruence]. destruct (Nat.eq_dec m m') as [->|NM]; [left; right; eauto|].
                right. intros [[X _]|(m0 & X & Y)]; congruence. }
              destruct SD as [SD|SD]; [left; eauto|right; intros r' d0 [= -> _]; exact SD]. }
            destruct DK as [(r' & d0 & -> & S)|DK].
            - left. exists [], r', d0, l. split; [reflexivity|]. split; [exact S|intros ? ? []].
            - destruct IHl as [(b & r' & d0 & a & -> & S & N)|N]; [intros y Y; apply IC; right; exact Y| |].
              + left. exists (k :: b), r', d0, a. split; [reflexivity|]. split; [exact S|]. intros r3 d3 [X|X]; [apply (DK r3 d3 X)|apply (N r3 d3 X)].
              + right. intros r3 d3 [X|X]; [apply (DK r3 d3 X)|apply (N r3 d3 X)]. }
          destruct (DEC h (fun y Y => Y)) as [(b & r' & d0 & a & E1 & S & N)|N]; [|destruct (N r2 d2 I LK)].
          exists d0, b, r', a. split; [exact E1|]. split; [apply linked_iff; assumption|]. intros r3 d3 I3 LK3. apply (N r3 d3 I3). apply linked_iff in LK3; assumption. }
        destruct F as (d0 & F). apply (IH r url LR) in F. congruence.
      - intros N. destruct (ent h r url) as [d0|] eqn:E; [|reflexivity]. exfalso. apply (IH r url LR) in E. destruct E as (b & r' & a & -> & LK & _).
        apply (N r' d0); [apply in_or_app; right; left; reflexivity|exact LK]. }
    destruct c as [s|a|a k|a u d0].
    1-3: rewrite ent_old; [|assumption|assumption|discriminate]; split; [auto|]; intros [X|(a' & X & _)]; [exact X|discriminate].
    destruct (ent_set h a u d0 r url P LR) as [E1 E2].
    assert (SD : shares h a r \/ ~ shares h a r).
    { destruct (Nat.eq_dec a r) as [->|NX]; [left; left; auto|]. unfold shares. destruct (dec h a) as [m|]; [|right; intros [[X _]|(m & X & _)]; congruence].
      destruct (dec h r) as [m'|]; [|right; intros [[X _]|(m' & _ & X)]; congruence]. destruct (Nat.eq_dec m m') as [->|NM]; [left; right; eauto|].
      right. intros [[X _]|(m0 & X & Y)]; congruence. }
    destruct SD as [S|S].
    + rewrite (E1 S). destruct (String.eqb_spec u url) as [->|NU].
      * destruct (ent h r url) as [x|] eqn:EX.
        -- split; [auto|]. intros [X|(a' & [= -> ->] & LK & N)]; [exact X|]. apply NONE in N. discriminate N.
        -- split; [intros [= <-]; right; exists a; split; [reflexivity|]; split; [apply linked_iff; assumption|apply NONE; reflexivity]|].
           intros [X|(a' & [= -> ->] & _)]; [discriminate|reflexivity].
      * split; [auto|]. intros [X|(a' & X & _)]; [exact X|congruence].
    + rewrite (E2 S). split; [auto|]. intros [X|(a' & X & LK & _)]; [exact X|]. injection X as -> _ _. apply linked_iff in LK; [contradiction|exact P1].
  - assert (r = made_by h) by (rewrite made_snoc in L; destruct c; lia). subst r. rewrite ent_dec, (dec_made h c P).
    assert (C : (exists s, c = RNew s) \/ exists a, c = RCopy a) by (rewrite made_snoc in L; destruct c; eauto; lia).
    assert (LN : forall r', r' < made_by h -> linked (h ++ [c]) r' (made_by h) <-> exists m, dec h r' = Some m /\ match c with RCopy a => dec h a | _ => None end = Some m).
    { intros r' L'. rewrite linked_iff by exact P. unfold shares. rewrite (dec_made h c P), (dec_snoc h c r' P L').
      assert (DD : match c with RSetDecoder r0 _ _ => if Nat.eqb r0 r' then match dec h r' with Some m => Some m | None => Some (List.length (w_maps (rrun h))) end else dec h r' | _ => dec h r' end = dec h r')
        by (destruct C as [(s & ->)|(a & ->)]; reflexivity).
      rewrite DD. split; [intros [[X _]|X]; [lia|exact X]|auto]. }
    destruct C as [(s & ->)|(a & ->)].
    + split; [discriminate|]. intros (b & r' & x & E & LK & _). exfalso. apply snoc_split in E. destruct E as [(_ & X & _)|(x' & _ & ->)]; [discriminate|].
      destruct (set_in _ r' url d P1) as [L' _]; [apply in_or_app; right; left; reflexivity|]. apply LN in LK; [|exact L']. destruct LK as (m & _ & X). discriminate.
    + specialize (A a eq_refl).
      assert (M : w_maps (rrun (h ++ [RCopy a])) = w_maps (rrun h)) by (rewrite run_snoc; cbn [rstep]; destruct (nth_error _ a); reflexivity).
      rewrite M, <- ent_dec, (IH a url A). split.
      * intros (b & r' & x & -> & LK & N). destruct (set_in _ r' url d P1) as [L' H']; [apply in_or_app; right; left; reflexivity|].
        exists b, r', (x ++ [RCopy a])%list. split; [rewrite <- app_assoc; reflexivity|]. split.
        -- apply LN; [exact L'|]. apply linked_sound in H'; [|exact P1]. destruct H' as (m & E). exists m. split; [exact E|].
           apply linked_iff in LK; [|exact P1]. destruct LK as [[<- _]|(m' & E1 & E2)]; congruence.
        -- intros r2 d2 I LK2. apply (N r2 d2 I). destruct (set_in _ r2 url d2 P1) as [L2 _]; [apply in_or_app; left; exact I|].
           apply LN in LK2; [|exact L2]. destruct LK2 as (m & E1 & E2). apply linked_iff; [exact P1|]. right. eauto.
      * intros (b & r' & x & E & LK & N). apply snoc_split in E. destruct E as [(_ & X & _)|(x' & -> & ->)]; [discriminate|].
        destruct (set_in _ r' url d P1) as [L' _]; [apply in_or_app; right; left; reflexivity|]. apply LN in LK; [|exact L']. destruct LK as (m & E1 & E2).
        exists b, r', x'. split; [reflexivity|]. split; [apply linked_iff; [exact P1|]; right; eauto|].
        intros r2 d2 I LK2. apply (N r2 d2 I). destruct (set_in _ r2 url d2 P1) as [L2 _]; [apply in_or_app; left; exact I|]. apply LN; [exact L2|].
        apply linked_iff in LK2; [|exact P1]. destruct LK2 as [[-> _]|(m' & F1 & F2)]; [eauto|]. exists m'. split; [exact F1|congruence].
Qed.

(** A registry finds the decoder of the first registration for the type URL at a registry that shares its decoders, and nil if there was none. *)
Theorem C80_found : forall h r url, proper h -> r < made_by h -> forall d,
  decoder_for (rrun h) r url = d <-> first_registered h r url d \/ ((forall d', ~ first_registered h r url d') /\ d = None).
Proof.
  intros h r url P L d. pose proof (ent_first h P r url L) as F. assert (X : decoder_for (rrun h) r url = match ent h r url with Some d => d | None => None end).
  { unfold decoder_for, ent. destruct (nth_error _ r); reflexivity. }
  rewrite X. destruct (ent h r url) as [e|] eqn:E.
  - split; [intros <-; left; apply F; reflexivity|]. intros [H|[H _]]; [apply F in H; congruence|destruct (H e); apply F; reflexivity].
  - split; [intros <-; right; split; [|reflexivity]; intros d' H; apply F in H; discriminate|]. intros [H|[_ ->]]; [apply F in H; discriminate|reflexivity].
Qed.
(** A registration is refused exactly if there was one for the type URL at a registry that shares its decoders, and changes nothing then. *)
Theorem C80_refused : forall h r url d, proper h -> r < made_by h ->
  (snd (rstep (rrun h) (RSetDecoder r url d)) = false <-> exists d', first_registered h r url d') /\
  (snd (rstep (rrun h) (RSetDecoder r url d)) = false -> rrun (h ++ [RSetDecoder r url d]) = rrun h).
Proof.
  intros h r url d P L. pose proof (ent_first h P r url L) as F. pose proof (regs_made h P) as LEN. unfold ent in F.
  destruct (nth_error (w_regs (rrun h)) r) as [x|] eqn:X; [|apply nth_error_None in X; lia].
  assert (N : x_decs x = None -> forall d', ~ first_registered h r url d').
  { intros E d' H. apply F in H. unfold map_of in H. rewrite E in H. discriminate. }
  rewrite run_snoc. cbn [rstep]. rewrite X. destruct (x_decs x) as [m|]; cbn [snd].
  - destruct (entry (map_of (rrun h) x) url) as [e|]; cbn [fst snd]; (split; [|first [reflexivity|discriminate]]).
    + split; [|reflexivity]. intros _. exists e. apply F. reflexivity.
    + split; [discriminate|]. intros (d' & H). apply F in H. discriminate.
  - split; [|discriminate]. split; [discriminate|]. intros (d' & H). destruct (N eq_refl d' H).
Qed.
(** Registrations elsewhere do not change what a registry finds; what it found it finds for good. *)
Theorem C80_apart : forall h a u d r url, proper (h ++ [RSetDecoder a u d]) -> r < made_by h -> ~ linked h a r ->
  decoder_for (rrun (h ++ [RSetDecoder a u d])) r url = decoder_for (rrun h) r url.
Proof.
  intros h a u d r url P L N. pose proof (proj1 (proper_snoc _ _ P)) as P1. assert (X : forall h, decoder_for (rrun h) r url = match ent h r url with Some d => d | None => None end).
  { intros h0. unfold decoder_for, ent. destruct (nth_error _ r); reflexivity. }
  rewrite !X. rewrite (proj2 (ent_set h a u d r url P L)); [reflexivity|]. intros S. apply N, linked_iff; assumption.
Qed.
Theorem C80_for_good : forall h c r url d, proper (h ++ [c]) -> r < made_by h ->
  decoder_for (rrun h) r url = Some d -> decoder_for (rrun (h ++ [c])) r url = Some d.
Proof.
  intros h c r url d P L E. apply (C80_found h r url (proj1 (proper_snoc _ _ P)) L) in E. destruct E as [F|[_ E]]; [|discriminate].
  apply (C80_found (h ++ [c]) r url P); [rewrite made_snoc; lia|]. left. apply first_old; auto.
Qed.

Definition fields (h : list (rcall D K)) (r : nat) : option (nat * option K) := option_map (fun x => (x_set x, x_conv x)) (nth_error (w_regs (rrun h)) r).
(** A copy has the extension set and the converter of the registry it is made of; setting a converter later changes that one registry only. *)
Theorem C80_fields : forall h c r, proper (h ++ [c]) -> fields (h ++ [c]) r =
  match c with
  | RNew s => if r =? made_by h then Some (s, None) else fields h r
  | RCopy a => if r =? made_by h then fields h a else fields h r
  | RSetConverter a k => if r =? a then option_map (fun x => (fst x, k)) (fields h r) else fields h r
  | RSetDecoder _ _ _ => fields h r
  end.
Proof.
  intros h c r P. pose proof (proper_snoc _ _ P) as [P1 A]. pose proof (regs_made h P1) as LEN. unfold fields. rewrite run_snoc.
  assert (SN : forall x, nth_error (w_regs (rrun h) ++ [x]) r = if r =? made_by h then Some x else nth_error (w_regs (rrun h)) r).
  { intros x. destruct (Nat.eqb_spec r (made_by h)) as [->|NE]; [rewrite nth_error_app2, LEN, Nat.sub_diag by lia; reflexivity|].
    destruct (Nat.lt_ge_cases r (made_by h)); [rewrite nth_error_app1 by lia; reflexivity|].
    assert (N1 : nth_error (w_regs (rrun h)) r = None) by (apply nth_error_None; lia). rewrite N1. apply nth_error_None. rewrite app_length. cbn. lia. }
  destruct c as [s|a|a k|a u d]; cbn [rstep].
  - cbn. rewrite SN. destruct (r =? made_by h); reflexivity.
  - specialize (A a eq_refl). destruct (nth_error (w_regs (rrun h)) a) as [x|] eqn:E; [|apply nth_error_None in E; lia]. cbn. rewrite SN. destruct (r =? made_by h); reflexivity.
  - specialize (A a eq_refl). destruct (nth_error (w_regs (rrun h)) a) as [x|] eqn:E; [|apply nth_error_None in E; lia]. cbn. rewrite put_nth, (Nat.eqb_sym r a).
    destruct (Nat.eqb_spec a r) as [->|]; [|reflexivity]. rewrite E. destruct (Nat.ltb_spec r (List.length (w_regs (rrun h)))); [reflexivity|lia].
  - specialize (A a eq_refl). destruct (nth_error (w_regs (rrun h)) a) as [x|] eqn:E; [|reflexivity]. destruct (x_decs x); [destruct (entry _ u); reflexivity|]. cbn. rewrite put_nth.
    destruct (Nat.eqb_spec a r) as [->|]; [|reflexivity]. rewrite E. destruct (Nat.ltb_spec r (List.length (w_regs (rrun h)))); [reflexivity|lia].
Qed.

(** Whether a copy of a registry gets the decoders registered after it was made depends on whether there were any before. *)
Theorem C80_copy_refuted : forall (s : nat) (u v : string) (d e : option D), u <> v -> exists before after : list (rcall D K),
  before = [RNew s; RCopy 0; RSetDecoder 0 u d] /\ after = [RNew s; RSetDecoder 0 v e; RCopy 0; RSetDecoder 0 u d] /\
  decoder_for (rrun before) 0 u = d /\ decoder_for (rrun before) 1 u = None /\
  decoder_for (rrun after) 0 u = d /\ decoder_for (rrun after) 1 u = d.
Proof.
  intros s u v d e N. eexists _, _. split; [reflexivity|]. split; [reflexivity|]. unfold rrun, decoder_for.
  assert (E1 : String.eqb u u = true) by apply String.eqb_refl. assert (E2 : String.eqb v u = false) by (apply String.eqb_neq; congruence).
  cbn. rewrite E2. cbn. rewrite E1. auto.
Qed.
(** A nil decoder counts as registered: no other can be registered for the type URL, though none is found. *)
Theorem C80_nil_decoder_refuted : forall (s : nat) (u : string) (d : option D), exists h : list (rcall D K),
  h = [RNew s; RSetDecoder 0 u None] /\ decoder_for (rrun h) 0 u = None /\ snd (rstep (rrun h) (RSetDecoder 0 u d)) = false.
Proof.
  intros s u d. eexists. split; [reflexivity|]. unfold rrun, decoder_for. assert (E1 : String.eqb u u = true) by apply String.eqb_refl. cbn. rewrite E1. auto.
Qed.
End Registries.

Example C80_nonvacuous :
  let h := [RNew 5; RSetDecoder 0 "a" (Some 1); RCopy 0; RSetConverter 1 (Some tt); RSetDecoder 1 "b" (Some 2); RNew 6]%string in
  @proper nat unit h /\ made_by h = 3 /\ decoder_for (rrun h) 0 "b" = Some 2 /\ decoder_for (rrun h) 2 "b" = None /\
  fields h 0 = Some (5, None) /\ fields h 1 = Some (5, Some tt) /\ linked h 0 1 /\ ~ linked h 2 1.
Proof.
  cbv zeta. set (h := [_; _; _; _; _; _]). assert (P : @proper nat unit h).
  { intros b c a r E A. unfold h in E. do 6 (destruct b as [|? b]; [injection E as <- _; cbn in A; try discriminate A; injection A as <-; cbn; lia|injection E as <- E]). destruct b; discriminate E. }
  split; [exact P|]. do 5 (split; [reflexivity|]). split; [apply linked_iff; [exact P|]; right; exists 0; split; reflexivity|].
  intros L. apply linked_iff in L; [|exact P]. destruct L as [[X _]|(m & X & _)]; discriminate X.
Qed.

Print Assumptions C80_found.
Print Assumptions C80_refused.
Print Assumptions C80_apart.
Print Assumptions C80_for_good.
Print Assumptions C80_fields.
Print Assumptions C80_copy_refuted.
Print Assumptions C80_nil_decoder_refuted.
Print Assumptions C80_nonvacuous.
