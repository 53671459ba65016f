(** C83: relations as objects that other relations are built on.  Proofs and theorems. *)

From Coq Require Import ZArith Bool List Lia PeanoNat Wf_nat.
From Verif Require Import Base RelObjModel RelObjSpec.
Import ListNotations.
Local Open Scope Z_scope.

Section Objects.
Context {T : Type}.
Implicit Types (h : heap T) (c : ocall T) (n : node T) (r i : nat).

Definition wf h : Prop := forall r n m, nth_error h r = Some (n, m) -> forall i, In i (inputs n) -> (i < r)%nat.
Lemma input_in : forall n i, input_of n i <-> In i (inputs n).
Proof. intros [cols|j ex|j|a b] i; cbn; intuition congruence. Qed.

Lemma direct_ext : forall (f g : nat -> res (list T)) n, (forall i, In i (inputs n) -> f i = g i) -> direct f n = direct g n.
Proof. intros f g [cols|j ex|j|a b] X; cbn in *; try reflexivity; rewrite ?(X j), ?(X a), ?(X b) by auto; reflexivity. Qed.
Lemma fuel_ext : forall h, wf h -> forall f g r, (r < f)%nat -> (r < g)%nat -> cols_in f h r = cols_in g h r.
Proof.
  intros h W. induction f as [|f IH]; intros [|g] r Lf Lg; try lia. cbn. destruct (nth_error h r) as [[n m]|] eqn:N; [|reflexivity].
  rewrite (direct_ext (cols_in f h) (cols_in g h) n); [reflexivity|]. intros i I. specialize (W r n m N i I). apply IH; lia.
Qed.
Lemma schema_eq : forall h r, wf h -> schema h r = match nth_error h r with None => Panic | Some (n, m) => let! d := direct (schema h) n in mapped m d end.
Proof.
  intros h r W. unfold schema at 1. cbn [cols_in]. destruct (nth_error h r) as [[n m]|] eqn:N; [|reflexivity].
  rewrite (direct_ext (cols_in r h) (schema h) n); [reflexivity|]. intros i I. pose proof (W r n m N i I). unfold schema. apply fuel_ext; [exact W|lia|lia].
Qed.
Lemma same_schema : forall h h', wf h -> wf h' -> forall r, (forall k, uses h r k -> nth_error h' k = nth_error h k) -> schema h' r = schema h r.
Proof.
  intros h h' W W' r. induction r as [r IH] using lt_wf_ind. intros S. rewrite !schema_eq by assumption. rewrite (S r) by constructor. destruct (nth_error h r) as [[n m]|] eqn:N; [|reflexivity].
  rewrite (direct_ext (schema h') (schema h) n); [reflexivity|]. intros i I. apply IH; [apply (W r n m N i I)|]. intros k U. apply S. eapply uses_input; [exact N|apply input_in; exact I|exact U].
Qed.
Lemma uses_le : forall h r k, wf h -> uses h r k -> (k <= r)%nat.
Proof. intros h r k W U. induction U as [r|r n m i l N I U IH]; [lia|]. apply input_in in I. specialize (W _ _ _ N _ I). lia. Qed.

(** ** the operations on columns *)
Lemma field_ok : forall (cols : list T) z x, field cols z = Ok x <-> 0 <= z /\ nth_error cols (Z.to_nat z) = Some x.
Proof.
  intros cols z x. unfold field. destruct (Z.ltb_spec z 0) as [L|L]; [split; [discriminate|lia]|]. destruct (nth_error cols (Z.to_nat z)); split; [|intros [_ X]|intros X|intros [_ X]]; try discriminate; [|congruence]. intros X. split; [lia|congruence].
Qed.
Lemma field_err : forall (cols : list T) z, field cols z <> Err.
Proof. intros cols z. unfold field. destruct (z <? 0); [discriminate|]. destruct (nth_error _ _); discriminate. Qed.
Lemma fields_ok : forall (cols : list T) m out, fields cols m = Ok out <-> selected (Some m) cols out.
Proof.
  intros cols. unfold selected. induction m as [|z m IH]; intros out; cbn.
  - split; [intros X; injection X as <-; constructor|intros X; inversion X; reflexivity].
  - split.
    + destruct (field cols z) as [x| |] eqn:F; cbn; try discriminate. destruct (fields cols m) as [xs| |] eqn:G; cbn; try discriminate. intros X. injection X as <-. constructor; [apply field_ok; exact F|apply IH; reflexivity].
    + intros X. inversion X as [|? ? ? ? F G]; subst. apply field_ok in F. apply IH in G. rewrite F, G. reflexivity.
Qed.
Lemma fields_err : forall (cols : list T) m, fields cols m <> Err.
Proof. intros cols. induction m as [|z m IH]; cbn; [discriminate|]. destruct (field cols z) eqn:F; cbn; try discriminate; [|destruct (field_err _ _ F)]. destruct (fields cols m); cbn; try discriminate. congruence. Qed.
Lemma mapped_ok : forall m (cols out : list T), mapped m cols = Ok out <-> selected m cols out.
Proof. intros [m|] cols out; cbn [mapped]; [apply fields_ok|]. cbn. split; congruence. Qed.
Lemma mapped_err : forall m (cols : list T), mapped m cols <> Err.
Proof. intros [m|] cols; cbn; [apply fields_err|discriminate]. Qed.
Lemma range_iff : forall k m, in_range k m = true <-> Forall (fun z => 0 <= z < Z.of_nat k) m.
Proof.
  intros k m. unfold in_range. rewrite forallb_forall, Forall_forall. split; intros X z I; specialize (X z I).
  - apply andb_prop in X. destruct X as [A B]. apply Z.leb_le in A. apply Z.ltb_lt in B. lia.
  - apply andb_true_intro. split; [apply Z.leb_le|apply Z.ltb_lt]; lia.
Qed.
Lemma range_selects : forall (cols : list T) m, Forall (fun z => 0 <= z < Z.of_nat (List.length cols)) m -> exists out, selected (Some m) cols out.
Proof.
  intros cols m F. induction F as [|z m Hz F [out IH]]; [exists []; constructor|]. destruct (nth_error cols (Z.to_nat z)) as [x|] eqn:N; [|apply nth_error_None in N; lia].
  exists (x :: out). constructor; [split; [lia|exact N]|exact IH].
Qed.
Lemma selected_len : forall l (cols out : list T), selected (Some l) cols out -> List.length out = List.length l.
Proof. intros l cols out F. induction F; cbn; congruence. Qed.
Lemma sequential_all : forall l (d out pre : list T), sequential (Z.of_nat (List.length pre)) l = true -> List.length l = List.length d -> selected (Some l) (pre ++ d) out -> out = d.
Proof.
  induction l as [|z l IH]; intros [|x d] out pre S L F; cbn in L; try discriminate; [inversion F; reflexivity|].
  cbn in S. apply andb_prop in S. destruct S as [S1 S2]. apply Z.eqb_eq in S1. subst z. inversion F as [|? y ? out' [_ N] F']; subst. rewrite Nat2Z.id, nth_error_app2, Nat.sub_diag in N by lia. cbn in N. injection N as <-.
  f_equal. apply (IH d out' (pre ++ [x])%list); [|lia|rewrite <- app_assoc; exact F']. rewrite app_length. cbn [List.length]. rewrite Nat2Z.inj_add. exact S2.
Qed.
Lemma nth_selected : forall l (d cols : list T) z x, selected (Some l) d cols -> 0 <= z -> nth_error cols (Z.to_nat z) = Some x ->
  0 <= nth (Z.to_nat z) l 0 /\ nth_error d (Z.to_nat (nth (Z.to_nat z) l 0)) = Some x.
Proof.
  intros l d cols z x F _. generalize (Z.to_nat z). unfold selected in F. induction F as [|a b l cols H F IH]; intros [|k] N; cbn in *; try discriminate; [|apply IH; exact N]. injection N as <-. exact H.
Qed.
Lemma composed_ok : forall old (d cols : list T) m out, mapped old d = Ok cols -> selected (Some m) cols out -> selected (Some (composed old m)) d out.
Proof.
  intros [[|a l]|] d cols m out MO F; cbn [composed].
  - cbn in MO. injection MO as <-. inversion F as [|z x ? ? [_ N]]; subst; [constructor|]. destruct (Z.to_nat z); discriminate.
  - apply mapped_ok in MO. unfold selected in *. induction F as [|z x m out [Hz N] F IH]; [constructor|]. cbn [map]. constructor; [|exact IH]. apply (nth_selected (a :: l) d cols z x MO Hz N).
  - cbn in MO. injection MO as <-. exact F.
Qed.

(** ** steps *)
Lemma assign_nth : forall r (o : object T) h k, nth_error (assign r o h) k = if Nat.eqb r k then match nth_error h k with Some _ => Some o | None => None end else nth_error h k.
Proof. induction r as [|r IH]; intros o [|x h] [|k]; cbn; try reflexivity; [destruct (Nat.eqb r k); reflexivity|apply IH]. Qed.
Lemma assign_length : forall r (o : object T) h, List.length (assign r o h) = List.length h.
Proof. induction r as [|r IH]; intros o [|x h]; cbn; try reflexivity. rewrite IH. reflexivity. Qed.
Lemma there_iff : forall h ins, there h ins = true <-> Forall (fun i => (i < List.length h)%nat) ins.
Proof. intros h ins. unfold there. rewrite forallb_forall, Forall_forall. split; intros X i I; specialize (X i I); apply Nat.ltb_lt; exact X. Qed.
Lemma snoc_wf : forall h n m, wf h -> (forall i, In i (inputs n) -> (i < List.length h)%nat) -> wf (h ++ [(n, m)]).
Proof.
  intros h n m W L r n' m' N i I. destruct (Nat.lt_ge_cases r (List.length h)) as [LR|LR]; [rewrite nth_error_app1 in N by exact LR; apply (W r n' m' N i I)|].
  rewrite nth_error_app2 in N by exact LR. destruct (r - List.length h)%nat as [|k] eqn:D; [cbn in N; injection N as <- <-; specialize (L i I); lia|destruct k; discriminate].
Qed.
Lemma assign_wf : forall h r cols m new, wf h -> nth_error h r = Some (Table cols, m) -> wf (assign r (Table cols, new) h).
Proof.
  intros h r cols m new W N k n' m' K i I. rewrite assign_nth in K. destruct (Nat.eqb r k) eqn:E; [|apply (W k n' m' K i I)]. destruct (nth_error h k); [|discriminate]. injection K as <- <-. destruct I.
Qed.
Lemma in_there : forall h r n m, wf h -> nth_error h r = Some (n, m) -> forall i, In i (inputs n) -> (i < List.length h)%nat.
Proof. intros h r n m W N i I. pose proof (W r n m N i I). assert (r < List.length h)%nat by (apply nth_error_Some; congruence). lia. Qed.

(** what a call can do to the objects: nothing, one more, or a new mapping for a read *)
Inductive moves h : heap T -> ocall T -> res nat -> Prop :=
| moves_none : forall c o, (forall k, o = Ok k -> exists ins, c = OCopy k ins /\ is_table h k) -> moves h h c o
| moves_more : forall c n m, (forall i, In i (inputs n) -> (i < List.length h)%nat) -> moves h (h ++ [(n, m)]) c (Ok (List.length h))
| moves_read : forall r cols old m new, nth_error h r = Some (Table cols, old) -> moves h (assign r (Table cols, new) h) (ORemap r m) (Ok r).
Lemma make_moves : forall h c n m h' o, (forall i, In i (inputs n) -> (i < List.length h)%nat) -> make h n m = (h', o) -> moves h h' c o.
Proof.
  intros h c n m h' o L E. unfold make in E. destruct (direct (schema h) n) as [d| |]; [destruct (in_range _ _)|..]; injection E as <- <-; try (apply moves_none; discriminate). apply moves_more. exact L.
Qed.
Lemma with_inputs_in : forall n ins n', with_inputs n ins = Some n' -> inputs n' = ins.
Proof. intros [cols|j ex|j|a b] [|x [|y [|z ins]]] n' E; cbn in E; try discriminate; injection E as <-; reflexivity. Qed.
Lemma step_moves : forall h c h' o, wf h -> ostep h c = (h', o) -> moves h h' c o.
Proof.
  intros h c h' o W E. destruct c as [cols m|i m ex|i m|a b m|r ins|r m]; cbn [ostep] in E.
  - eapply make_moves; [|exact E]. intros i [].
  - destruct (there h [i]) eqn:TH; [|injection E as <- <-; apply moves_none; discriminate]. destruct ex; [injection E as <- <-; apply moves_none; discriminate|]. eapply make_moves; [|exact E]. apply Forall_forall, there_iff, TH.
  - destruct (there h [i]) eqn:TH; [|injection E as <- <-; apply moves_none; discriminate]. eapply make_moves; [|exact E]. apply Forall_forall, there_iff, TH.
  - destruct (there h [a; b]) eqn:TH; [|injection E as <- <-; apply moves_none; discriminate]. eapply make_moves; [|exact E]. apply Forall_forall, there_iff, TH.
  - destruct (nth_error h r) as [[n m]|] eqn:N; [|injection E as <- <-; apply moves_none; discriminate].
    assert (G : match with_inputs n ins with None => (h, Err) | Some n' => if there h ins then ((h ++ [(n', m)])%list, Ok (List.length h)) else (h, Err) end = (h', o) -> moves h h' (OCopy r ins) o).
    { destruct (with_inputs n ins) as [n'|] eqn:WI; [|intros X; injection X as <- <-; apply moves_none; discriminate]. destruct (there h ins) eqn:TH; intros X; injection X as <- <-; [|apply moves_none; discriminate].
      apply moves_more. rewrite (with_inputs_in _ _ _ WI). apply Forall_forall, there_iff, TH. }
    destruct n as [cols|j ex|j|a b]; [injection E as <- <-; apply moves_none; intros k X; injection X as <-; exists ins; split; [reflexivity|exists cols, m; exact N]|exact (G E)..].
  - destruct (nth_error h r) as [[n old]|] eqn:N; [|injection E as <- <-; apply moves_none; discriminate].
    destruct (remapping h r n old m) as [new| |]; [|injection E as <- <-; apply moves_none; discriminate..].
    pose proof (in_there h r n old W N) as IT.
    destruct n as [cols|j ex|j|a b]; injection E as <- <-; [eapply moves_read; exact N|apply moves_more; exact IT..].
Qed.
Lemma moves_wf : forall h h' c o, wf h -> moves h h' c o -> wf h'.
Proof. intros h h' c o W M. destruct M; [exact W|apply snoc_wf; assumption|eapply assign_wf; eassumption]. Qed.
Lemma run_snoc : forall cs c, orun (cs ++ [c]) = fst (ostep (orun cs) c).
Proof. intros cs c. unfold orun. rewrite fold_left_app. reflexivity. Qed.
Lemma run_wf : forall cs : list (ocall T), wf (orun cs).
Proof.
  induction cs as [|c cs IH] using rev_ind; [intros r n m N; destruct r; discriminate|]. rewrite run_snoc. destruct (ostep (orun cs) c) as [h' o] eqn:E. eapply moves_wf; [exact IH|apply step_moves; eassumption].
Qed.
Lemma more_schema : forall h o r, wf h -> wf (h ++ [o]) -> (r < List.length h)%nat -> schema (h ++ [o]) r = schema h r.
Proof. intros h o r W W' L. apply same_schema; try assumption. intros k U. apply nth_error_app1. pose proof (uses_le _ _ _ W U). lia. Qed.

(** The schema of a relation is the one its inputs and its mapping give; computing it may panic but gives no error. *)
Theorem C83_schema : forall cs r, (forall cols, schema (orun cs) r = Ok cols <-> shows (orun cs : heap T) r cols) /\ schema (orun cs : heap T) r <> Err.
Proof.
  intros cs. pose proof (run_wf cs) as W. induction r as [r IH] using lt_wf_ind. rewrite schema_eq by exact W. destruct (nth_error (orun cs) r) as [[n m]|] eqn:N.
  - assert (IHn : forall i, In i (inputs n) -> (forall cols, schema (orun cs) i = Ok cols <-> shows (orun cs) i cols) /\ schema (orun cs) i <> Err) by (intros i I; apply IH, (W r n m N i I)).
    clear IH. destruct n as [base|j ex|j|a b]; cbn [inputs direct] in *.
    + cbn [bind]. split; [|apply mapped_err]. intros cols. rewrite mapped_ok. split; [intros S; eapply shows_table; eassumption|]. intros S. inversion S; subst; congruence.
    + destruct (IHn j (or_introl eq_refl)) as [J1 J2]. destruct (schema (orun cs) j) as [cj| |]; cbn [bind]; [|congruence|].
      * split; [|apply mapped_err]. intros cols. rewrite mapped_ok. split; [intros S; eapply shows_project; [exact N|apply J1; reflexivity|exact S]|]. intros S. inversion S as [| ? ? ? ? c0 ? N' S1 S2| |]; subst; try congruence. rewrite N in N'. injection N' as <- <- <-. apply J1 in S1. injection S1 as <-. exact S2.
      * split; [|discriminate]. intros cols. split; [discriminate|]. intros S. inversion S as [| ? ? ? ? c0 ? N' S1 S2| |]; subst; try congruence. rewrite N in N'. injection N' as <- <- <-. apply J1 in S1. discriminate.
    + destruct (IHn j (or_introl eq_refl)) as [J1 J2]. destruct (schema (orun cs) j) as [cj| |]; cbn [bind]; [|congruence|].
      * split; [|apply mapped_err]. intros cols. rewrite mapped_ok. split; [intros S; eapply shows_fetch; [exact N|apply J1; reflexivity|exact S]|]. intros S. inversion S as [| |? ? ? c0 ? N' S1 S2|]; subst; try congruence. rewrite N in N'. injection N' as <- <-. apply J1 in S1. injection S1 as <-. exact S2.
      * split; [|discriminate]. intros cols. split; [discriminate|]. intros S. inversion S as [| |? ? ? c0 ? N' S1 S2|]; subst; try congruence. rewrite N in N'. injection N' as <- <-. apply J1 in S1. discriminate.
    + destruct (IHn a (or_introl eq_refl)) as [A1 A2]. destruct (IHn b (or_intror (or_introl eq_refl))) as [B1 B2].
      assert (INV : forall cols, shows (orun cs) r cols -> exists x y, shows (orun cs) a x /\ shows (orun cs) b y /\ selected m (x ++ y) cols).
      { intros cols S. inversion S as [| | |? ? ? ? x y ? N' S1 S2 S3]; subst; try congruence. rewrite N in N'. injection N' as <- <- <-. eauto. }
      destruct (schema (orun cs) a) as [ca| |]; cbn [bind]; [|congruence|].
      * destruct (schema (orun cs) b) as [cb| |]; cbn [bind]; [|congruence|].
        -- split; [|apply mapped_err]. intros cols. rewrite mapped_ok. split; [intros S; eapply shows_cross; [exact N|apply A1; reflexivity|apply B1; reflexivity|exact S]|].
           intros S. destruct (INV _ S) as (x & y & X & Y & Z). apply A1 in X. apply B1 in Y. injection X as <-. injection Y as <-. exact Z.
        -- split; [|discriminate]. intros cols. split; [discriminate|]. intros S. destruct (INV _ S) as (x & y & X & Y & Z). apply B1 in Y. discriminate.
      * split; [|discriminate]. intros cols. split; [discriminate|]. intros S. destruct (INV _ S) as (x & y & X & Y & Z). apply A1 in X. discriminate.
  - split; [|discriminate]. intros cols. split; [discriminate|]. intros S. inversion S; congruence.
Qed.

(** Whatever is called, the schema of a relation stays unless the call remaps a read that the relation uses. *)
Theorem C83_kept : forall cs c r, (r < List.length (orun cs))%nat ->
  (forall t m, c = ORemap t m -> is_table (orun cs) t -> ~ uses (orun cs) r t) ->
  schema (orun (cs ++ [c])) r = schema (orun cs : heap T) r.
Proof.
  intros cs c r L NU. rewrite run_snoc. pose proof (run_wf cs) as W. destruct (ostep (orun cs) c) as [h' o] eqn:E. pose proof (step_moves _ _ _ _ W E) as M. pose proof (moves_wf _ _ _ _ W M) as W'. cbn [fst].
  destruct M as [c o K|c n m I|t cols old m new N].
  - reflexivity.
  - apply more_schema; assumption.
  - apply same_schema; try assumption. intros k U. rewrite assign_nth. destruct (Nat.eqb_spec t k) as [->|]; [|reflexivity]. exfalso. apply (NU k m eq_refl); [exists cols, old; exact N|exact U].
Qed.
(** the relations there are stay of their kind, on their inputs *)
Lemma nodes_stay : forall cs c r, (r < List.length (orun cs))%nat -> (r < List.length (orun (cs ++ [c])))%nat /\
  option_map fst (nth_error (orun (cs ++ [c])) r) = option_map fst (nth_error (orun cs : heap T) r).
Proof.
  intros cs c r L. rewrite run_snoc. pose proof (run_wf cs) as W. destruct (ostep (orun cs) c) as [h' o] eqn:E. pose proof (step_moves _ _ _ _ W E) as M. cbn [fst]. destruct M as [c o K|c n m I|t cols old m new N].
  - auto.
  - rewrite app_length, nth_error_app1 by exact L. split; [lia|reflexivity].
  - rewrite assign_length, assign_nth. split; [exact L|]. destruct (Nat.eqb_spec t r) as [->|]; [rewrite N|]; reflexivity.
Qed.
Lemma nodes_stay_all : forall cs cs' r, (r < List.length (orun cs))%nat -> (r < List.length (orun (cs ++ cs')))%nat /\
  option_map fst (nth_error (orun (cs ++ cs')) r) = option_map fst (nth_error (orun cs : heap T) r).
Proof.
  intros cs cs' r L. induction cs' as [|c cs' [L1 E1]] using rev_ind; [rewrite app_nil_r; auto|]. rewrite app_assoc. destruct (nodes_stay (cs ++ cs') c r L1) as [L2 E2]. split; [exact L2|congruence].
Qed.
Lemma uses_stay : forall cs cs' r t, uses (orun (cs ++ cs')) r t -> (r < List.length (orun cs))%nat -> uses (orun cs : heap T) r t.
Proof.
  intros cs cs' r t U. pose proof (run_wf (cs ++ cs')) as W. induction U as [r|r n m i t N I U IH]; intros L; [constructor|]. destruct (nodes_stay_all cs cs' r L) as [_ E]. rewrite N in E. cbn in E.
  destruct (nth_error (orun cs) r) as [[n0 m0]|] eqn:N0; [|discriminate]. cbn in E. injection E as <-. eapply uses_input; [exact N0|exact I|]. apply IH. apply input_in in I. specialize (W _ _ _ N _ I). lia.
Qed.
(** The same over any number of later calls. *)
Theorem C83_kept_history : forall cs cs' r, (r < List.length (orun cs))%nat ->
  (forall t m, In (ORemap t m) cs' -> is_table (orun cs) t -> ~ uses (orun cs) r t) ->
  schema (orun (cs ++ cs')) r = schema (orun cs : heap T) r.
Proof.
  intros cs cs' r L. induction cs' as [|c cs' IH] using rev_ind; intros NU; [rewrite app_nil_r; reflexivity|]. rewrite app_assoc. rewrite C83_kept.
  - apply IH. intros t m I. apply (NU t m). apply in_or_app. auto.
  - apply nodes_stay_all. exact L.
  - intros t m -> (cols & old & N) U. pose proof (uses_stay _ _ _ _ U L) as U'. assert (LT : (t < List.length (orun cs))%nat) by (pose proof (uses_le _ _ _ (run_wf cs) U'); lia).
    destruct (nodes_stay_all cs cs' t LT) as [_ E]. rewrite N in E. cbn in E. destruct (nth_error (orun cs) t) as [[n0 m0]|] eqn:N0; [|discriminate]. cbn in E. injection E as <-.
    apply (NU t m); [apply in_or_app; right; left; reflexivity|exists cols, m0; exact N0|exact U'].
Qed.
(** A call that fails changes nothing; a call that succeeds returns a new relation, or a read it was called on. *)
Theorem C83_result : forall cs c,
  match snd (ostep (orun cs) c) with
  | Ok r => (r = List.length (orun cs) /\ List.length (orun (cs ++ [c])) = S r /\ forall k, (k < r)%nat -> nth_error (orun (cs ++ [c])) k = nth_error (orun cs : heap T) k) \/
            (is_table (orun cs) r /\ ((exists ins, c = OCopy r ins /\ orun (cs ++ [c]) = orun cs) \/
              (exists m, c = ORemap r m /\ List.length (orun (cs ++ [c])) = List.length (orun cs) /\ forall k, k <> r -> nth_error (orun (cs ++ [c])) k = nth_error (orun cs) k)))
  | _ => orun (cs ++ [c]) = orun cs
  end.
Proof.
  intros cs c. rewrite run_snoc. pose proof (run_wf cs) as W. destruct (ostep (orun cs) c) as [h' o] eqn:E. pose proof (step_moves _ _ _ _ W E) as M. cbn [fst snd]. destruct M as [c o K|c n m I|t cols old m new N].
  - destruct o as [k| |]; try reflexivity. right. destruct (K k eq_refl) as (ins & -> & TB). split; [exact TB|]. left. exists ins. auto.
  - left. split; [reflexivity|]. split; [rewrite app_length; cbn; lia|]. intros k LK. apply nth_error_app1. exact LK.
  - right. split; [exists cols, old; exact N|]. right. exists m. split; [reflexivity|]. split; [apply assign_length|]. intros k NK. rewrite assign_nth. destruct (Nat.eqb_spec t k); [congruence|reflexivity].
Qed.

(** [Copy] of a read is the read itself; of another relation, a new relation on the inputs given, with the same mapping; the wrong number of inputs is an error. *)
Theorem C83_copy : forall cs r n m ins, nth_error (orun cs) r = Some (n, m) -> Forall (fun i => (i < List.length (orun cs))%nat) ins ->
  ostep (orun cs : heap T) (OCopy r ins) =
  match n, ins with
  | Table _, _ => (orun cs, Ok r)
  | Project _ ex, [i] => ((orun cs ++ [(Project i ex, m)])%list, Ok (List.length (orun cs)))
  | Fetch _, [i] => ((orun cs ++ [(Fetch i, m)])%list, Ok (List.length (orun cs)))
  | Cross _ _, [a; b] => ((orun cs ++ [(Cross a b, m)])%list, Ok (List.length (orun cs)))
  | _, _ => (orun cs, Err)
  end.
Proof.
  intros cs r n m ins N F. cbn [ostep]. rewrite N. apply there_iff in F. destruct n as [cols|j ex|j|a b]; [reflexivity|..]; destruct ins as [|x [|y [|z ins]]]; cbn [with_inputs]; try reflexivity; rewrite F; reflexivity.
Qed.
(** A copy on inputs with the schemas of the old ones has the old schema. *)
Theorem C83_copy_schema : forall cs r n m ins r', nth_error (orun cs) r = Some (n, m) -> snd (ostep (orun cs) (OCopy r ins)) = Ok r' ->
  map (schema (orun cs)) ins = map (schema (orun cs)) (match n with Table _ => ins | Project i _ | Fetch i => [i] | Cross a b => [a; b] end) ->
  schema (orun (cs ++ [OCopy r ins])) r' = schema (orun cs : heap T) r.
Proof.
  intros cs r n m ins r' N SN EQ. rewrite run_snoc. pose proof (run_wf cs) as W. cbn [ostep] in *. rewrite N in *.
  assert (G : forall n', with_inputs n ins = Some n' -> (if there (orun cs) ins then ((orun cs ++ [(n', m)])%list, Ok (List.length (orun cs))) else (orun cs, Err)) = (orun cs ++ [(n', m)], Ok r')%list ->
    direct (schema (orun cs)) n' = direct (schema (orun cs)) n -> schema (orun cs ++ [(n', m)]) r' = schema (orun cs) r).
  { intros n' WI X D. destruct (there (orun cs) ins) eqn:TH; [|discriminate]. injection X as <-. pose proof (proj1 (there_iff _ _) TH) as F. rewrite Forall_forall in F.
    assert (I' : forall i, In i (inputs n') -> (i < List.length (orun cs))%nat) by (rewrite (with_inputs_in _ _ _ WI); exact F). pose proof (snoc_wf _ n' m W I') as W'.
    rewrite (schema_eq _ (List.length (orun cs)) W'), nth_error_app2, Nat.sub_diag by lia. cbn [nth_error]. rewrite (schema_eq _ r W), N, <- D. f_equal. apply direct_ext. intros i I. apply more_schema; auto. }
  destruct n as [cols|j ex|j|a b]; [cbn in *; injection SN as <-; reflexivity|..]; destruct ins as [|x [|y [|z ins]]]; cbn [with_inputs map] in *; try discriminate.
  - destruct (there (orun cs) [x]) eqn:TH; [|discriminate]. cbn [fst snd] in *. apply (G _ eq_refl); [congruence|]. injection EQ as EQ. cbn [direct]. rewrite EQ. reflexivity.
  - destruct (there (orun cs) [x]) eqn:TH; [|discriminate]. cbn [fst snd] in *. apply (G _ eq_refl); [congruence|]. injection EQ as EQ. cbn [direct]. rewrite EQ. reflexivity.
  - destruct (there (orun cs) [x; y]) eqn:TH; [|discriminate]. cbn [fst snd] in *. apply (G _ eq_refl); [congruence|]. injection EQ as E1 E2. cbn [direct]. rewrite E1, E2. reflexivity.
Qed.

Lemma remapping_ok : forall h r n old m cols, wf h -> nth_error h r = Some (n, old) -> schema h r = Ok cols ->
  (Forall (fun z => 0 <= z < Z.of_nat (List.length cols)) m -> exists d new out, direct (schema h) n = Ok d /\ remapping h r n old m = Ok new /\ mapped new d = Ok out /\ selected (Some m) cols out) /\
  (~ Forall (fun z => 0 <= z < Z.of_nat (List.length cols)) m -> remapping h r n old m = Err).
Proof.
  intros h r n old m cols W N SC. pose proof SC as SC'. rewrite schema_eq, N in SC by exact W. destruct (direct (schema h) n) as [d| |] eqn:D; cbn [bind] in SC; try discriminate. split.
  - intros F. destruct (range_selects _ _ F) as [out SO]. exists d. destruct m as [|z m].
    + exists (Some []), []. inversion SO; subst. split; [reflexivity|]. split; [reflexivity|]. split; [reflexivity|constructor].
    + unfold remapping. rewrite SC'. cbn [bind]. rewrite (proj2 (range_iff _ _) F), D. cbn [bind]. pose proof (composed_ok old d cols (z :: m) out SC SO) as CO.
      destruct (Nat.eqb (List.length (composed old (z :: m))) (List.length d) && sequential 0 (composed old (z :: m))) eqn:SQ.
      * exists None, out. split; [reflexivity|]. split; [reflexivity|]. split; [|exact SO]. apply andb_prop in SQ. destruct SQ as [LQ SQ]. apply Nat.eqb_eq in LQ. cbn. f_equal. symmetry. apply (sequential_all _ d out [] SQ LQ CO).
      * eexists (Some _), out. split; [reflexivity|]. split; [reflexivity|]. split; [apply mapped_ok; exact CO|exact SO].
  - intros NF. destruct m as [|z m]; [destruct NF; constructor|]. unfold remapping. rewrite SC'. cbn [bind]. destruct (in_range (List.length cols) (z :: m)) eqn:R; [apply range_iff in R; contradiction|reflexivity].
Qed.
(** [Remap] with positions of the relation's columns returns a relation with just those columns: the read itself, or a new relation. *)
Theorem C83_remap : forall cs r m cols, schema (orun cs) r = Ok cols -> Forall (fun z => 0 <= z < Z.of_nat (List.length cols)) m -> exists r' out,
  snd (ostep (orun cs) (ORemap r m)) = Ok r' /\ schema (orun (cs ++ [ORemap r m])) r' = Ok out /\ selected (Some m) (cols : list T) out /\
  (is_table (orun cs) r -> r' = r) /\ (~ is_table (orun cs) r -> r' = List.length (orun cs)).
Proof.
  intros cs r m cols SC F. pose proof (run_wf cs) as W. rewrite run_snoc. destruct (nth_error (orun cs) r) as [[n old]|] eqn:N; [|rewrite schema_eq, N in SC by exact W; discriminate].
  destruct (proj1 (remapping_ok _ _ _ _ m _ W N SC) F) as (d & new & out & D & RM & MP & SO). cbn [ostep]. rewrite N, RM.
  assert (G : schema (orun cs ++ [(n, new)]) (List.length (orun cs)) = Ok out).
  { pose proof (in_there _ _ _ _ W N) as IT. pose proof (snoc_wf _ n new W IT) as W'. rewrite (schema_eq _ _ W'), nth_error_app2, Nat.sub_diag by lia. cbn [nth_error].
    rewrite (direct_ext _ (schema (orun cs)) n) by (intros i I; apply more_schema; auto). rewrite D. exact MP. }
  destruct n as [base|j ex|j|a b]; cbn [fst snd].
  - exists r, out. split; [reflexivity|]. split; [|split; [exact SO|split; [reflexivity|]]].
    + rewrite (schema_eq _ _ (assign_wf _ _ _ _ new W N)), assign_nth, Nat.eqb_refl, N. cbn in D. injection D as <-. exact MP.
    + intros NT. destruct NT. exists base, old. exact N.
  - eexists _, out. split; [reflexivity|]. split; [exact G|]. split; [exact SO|]. split; [intros (x & y & X); congruence|reflexivity].
  - eexists _, out. split; [reflexivity|]. split; [exact G|]. split; [exact SO|]. split; [intros (x & y & X); congruence|reflexivity].
  - eexists _, out. split; [reflexivity|]. split; [exact G|]. split; [exact SO|]. split; [intros (x & y & X); congruence|reflexivity].
Qed.
Theorem C83_remap_refused : forall cs r m cols, schema (orun cs) r = Ok cols -> ~ Forall (fun z => 0 <= z < Z.of_nat (List.length (cols : list T))) m ->
  ostep (orun cs) (ORemap r m) = (orun cs, Err).
Proof.
  intros cs r m cols SC NF. pose proof (run_wf cs) as W. destruct (nth_error (orun cs) r) as [[n old]|] eqn:N; [|rewrite schema_eq, N in SC by exact W; discriminate]. cbn [ostep]. rewrite N, (proj2 (remapping_ok _ _ _ _ m _ W N SC) NF). reflexivity.
Qed.
Theorem C83_remap_panics : forall cs r z m, schema (orun cs : heap T) r = Panic -> ostep (orun cs) (ORemap r (z :: m)) = (orun cs, Panic).
Proof. intros cs r z m SC. cbn [ostep]. destruct (nth_error (orun cs) r) as [[n old]|]; [|reflexivity]. unfold remapping. rewrite SC. reflexivity. Qed.

(** What the builder makes: a new relation with the columns of its inputs, selected, or an error exactly if a position is out of range. *)
Lemma make_ok : forall h n m d, wf h -> (forall i, In i (inputs n) -> (i < List.length h)%nat) -> direct (schema h) n = Ok d ->
  (Forall (fun z => 0 <= z < Z.of_nat (List.length d)) (positions m) -> exists h' out, make h n m = (h', Ok (List.length h)) /\ schema h' (List.length h) = Ok out /\ selected m d out) /\
  (~ Forall (fun z => 0 <= z < Z.of_nat (List.length d)) (positions m) -> make h n m = (h, Err)).
Proof.
  intros h n m d W L D. unfold make. rewrite D. change (indices m) with (positions m). split; intros F.
  - rewrite (proj2 (range_iff _ _) F). assert (X : exists out, selected m d out) by (destruct m; [apply range_selects; exact F|exists d; reflexivity]). destruct X as [out SO]. eexists _, out. split; [reflexivity|]. split; [|exact SO].
    pose proof (snoc_wf h n m W L) as W'. rewrite (schema_eq _ _ W'), nth_error_app2, Nat.sub_diag by lia. cbn [nth_error]. rewrite (direct_ext _ (schema h) n) by (intros i I; apply more_schema; auto). rewrite D. apply mapped_ok. exact SO.
  - destruct (in_range (List.length d) (positions m)) eqn:R; [apply range_iff in R; contradiction|reflexivity].
Qed.
Lemma exists_there : forall h r cols, wf h -> schema h r = Ok cols -> (r < List.length h)%nat.
Proof. intros h r cols W S. rewrite schema_eq in S by exact W. apply nth_error_Some. destruct (nth_error h r); congruence. Qed.
Theorem C83_built : forall cs c (d : list T) m,
  match c with
  | OTable cols m' => d = cols /\ m' = m
  | OProject i m' ex => m' = m /\ ex <> [] /\ exists a, schema (orun cs) i = Ok a /\ d = (a ++ ex)%list
  | OFetch i m' => m' = m /\ schema (orun cs) i = Ok d
  | OCross i j m' => m' = m /\ exists a b, schema (orun cs) i = Ok a /\ schema (orun cs) j = Ok b /\ d = (a ++ b)%list
  | _ => False
  end ->
  (Forall (fun z => 0 <= z < Z.of_nat (List.length d)) (positions m) -> exists out,
     snd (ostep (orun cs) c) = Ok (List.length (orun cs)) /\ schema (orun (cs ++ [c])) (List.length (orun cs)) = Ok out /\ selected m d out) /\
  (~ Forall (fun z => 0 <= z < Z.of_nat (List.length d)) (positions m) -> ostep (orun cs) c = (orun cs, Err)).
Proof.
  intros cs c d m H. pose proof (run_wf cs) as W. rewrite run_snoc.
  assert (G : forall n, (forall i, In i (inputs n) -> (i < List.length (orun cs))%nat) -> direct (schema (orun cs)) n = Ok d -> ostep (orun cs) c = make (orun cs) n m ->
    (Forall (fun z => 0 <= z < Z.of_nat (List.length d)) (positions m) -> exists out, snd (ostep (orun cs) c) = Ok (List.length (orun cs)) /\ schema (fst (ostep (orun cs) c)) (List.length (orun cs)) = Ok out /\ selected m d out) /\
    (~ Forall (fun z => 0 <= z < Z.of_nat (List.length d)) (positions m) -> ostep (orun cs) c = (orun cs, Err))).
  { intros n L D EQ. rewrite EQ. destruct (make_ok _ n m d W L D) as [A B]. split; [|exact B]. intros F. destruct (A F) as (h' & out & E & S & SO). exists out. rewrite E. auto. }
  destruct c as [cols m'|i m' ex|i m'|i j m'|r ins|r m']; try contradiction.
  - destruct H as [-> ->]. apply (G (Table cols)); [intros i []|reflexivity|reflexivity].
  - destruct H as (-> & NE & a & S & ->). pose proof (exists_there _ _ _ W S) as L. apply (G (Project i ex)); [intros k [<-|[]]; exact L|cbn [direct]; rewrite S; reflexivity|]. cbn [ostep]. rewrite (proj2 (there_iff _ [i])) by (constructor; [exact L|constructor]). destruct ex; [congruence|reflexivity].
  - destruct H as (-> & S). pose proof (exists_there _ _ _ W S) as L. apply (G (Fetch i)); [intros k [<-|[]]; exact L|exact S|]. cbn [ostep]. rewrite (proj2 (there_iff _ [i])) by (constructor; [exact L|constructor]). reflexivity.
  - destruct H as (-> & a & b & S1 & S2 & ->). pose proof (exists_there _ _ _ W S1) as L1. pose proof (exists_there _ _ _ W S2) as L2. apply (G (Cross i j)); [intros k [<-|[<-|[]]]; assumption|cbn [direct]; rewrite S1, S2; reflexivity|].
    cbn [ostep]. rewrite (proj2 (there_iff _ [i; j])) by (constructor; [exact L1|constructor; [exact L2|constructor]]). reflexivity.
Qed.

(** No relation is made on a missing input, and no projection without expressions; an input whose schema panics makes the builder panic. *)
Theorem C83_not_built : forall cs c,
  match c with
  | OProject i _ ex => (List.length (orun cs) <= i)%nat \/ ex = []
  | OFetch i _ => (List.length (orun cs) <= i)%nat
  | OCross i j _ => (List.length (orun cs) <= i)%nat \/ (List.length (orun cs) <= j)%nat
  | _ => False
  end -> ostep (orun cs : heap T) c = (orun cs, Err).
Proof.
  intros cs c H. assert (NT : forall ins i, In i ins -> (List.length (orun cs) <= i)%nat -> there (orun cs) ins = false).
  { intros ins i I L. destruct (there (orun cs) ins) eqn:TH; [|reflexivity]. apply there_iff in TH. rewrite Forall_forall in TH. specialize (TH i I). cbn in TH. lia. }
  destruct c as [cols m|i m ex|i m|i j m|r ins|r m]; try contradiction; cbn [ostep].
  - destruct H as [L| ->]; [rewrite (NT [i] i) by (cbn; auto); reflexivity|destruct (there (orun cs) [i]); reflexivity].
  - rewrite (NT [i] i) by (cbn; auto). reflexivity.
  - destruct H as [L|L]; [rewrite (NT [i; j] i) by (cbn; auto)|rewrite (NT [i; j] j) by (cbn; auto)]; reflexivity.
Qed.
Theorem C83_build_panics : forall cs c,
  match c with
  | OProject i _ ex => (i < List.length (orun cs))%nat /\ ex <> [] /\ schema (orun cs) i = Panic
  | OFetch i _ => (i < List.length (orun cs))%nat /\ schema (orun cs) i = Panic
  | OCross i j _ => (i < List.length (orun cs))%nat /\ (j < List.length (orun cs))%nat /\ (schema (orun cs) i = Panic \/ schema (orun cs) j = Panic)
  | _ => False
  end -> ostep (orun cs : heap T) c = (orun cs, Panic).
Proof.
  intros cs c H. destruct c as [cols m|i m ex|i m|i j m|r ins|r m]; try contradiction; cbn [ostep].
  - destruct H as (L & NE & S). rewrite (proj2 (there_iff _ [i])) by (constructor; [exact L|constructor]). destruct ex; [congruence|]. unfold make. cbn [direct]. rewrite S. reflexivity.
  - destruct H as (L & S). rewrite (proj2 (there_iff _ [i])) by (constructor; [exact L|constructor]). unfold make. cbn [direct]. rewrite S. reflexivity.
  - destruct H as (L1 & L2 & S). rewrite (proj2 (there_iff _ [i; j])) by (constructor; [exact L1|constructor; [exact L2|constructor]]). unfold make. cbn [direct].
    pose proof (proj2 (C83_schema cs i)) as NE. destruct (schema (orun cs) i) as [a| |]; [|congruence|reflexivity]. destruct S as [S|S]; [discriminate|]. rewrite S. reflexivity.
Qed.
(** Remapping a read changes relations built on it before: one that had a schema panics, one shows another column. *)
Theorem C83_shared_refuted : forall a b : T, a <> b ->
  let cs := [OTable [a; b] None; OFetch 0 (Some [1]); OTable [a; b] None; OFetch 2 (Some [0])] in
  schema (orun cs) 1 = Ok [b] /\ snd (ostep (orun cs) (ORemap 0 [0])) = Ok 0%nat /\ schema (orun (cs ++ [ORemap 0 [0]])) 1 = Panic /\
  schema (orun cs) 3 = Ok [a] /\ schema (orun (cs ++ [ORemap 2 [1; 0]])) 3 = Ok [b].
Proof. intros a b NE. cbv. auto. Qed.
End Objects.

Example C83_nonvacuous :
  let cs := [OTable [10; 11; 12]%nat None; OTable [20; 21]%nat (Some [1]); OCross 0 1 (Some [3; 0; 1]); OProject 2 None [30]%nat; ORemap 3 [3; 1]; ORemap 4 [1]; OCopy 2 [1; 0]%nat] in
  map (schema (orun cs)) (seq 0 7) = [Ok [10; 11; 12]; Ok [21]; Ok [21; 10; 11]; Ok [21; 10; 11; 30]; Ok [30; 10]; Ok [10]; Ok [12; 21; 10]]%nat.
Proof. reflexivity. Qed.

Print Assumptions C83_schema.
Print Assumptions C83_kept.
Print Assumptions C83_kept_history.
Print Assumptions C83_result.
Print Assumptions C83_copy.
Print Assumptions C83_copy_schema.
Print Assumptions C83_remap.
Print Assumptions C83_remap_refused.
Print Assumptions C83_remap_panics.
Print Assumptions C83_built.
Print Assumptions C83_not_built.
Print Assumptions C83_build_panics.
Print Assumptions C83_shared_refuted.
Print Assumptions C83_nonvacuous.
