(** C22-C24: anchors handed out by an extension set, and its wire form. *)

From Coq Require Import List ZArith String Bool Lia Permutation.
From Verif Require Import Base FMap FMapFacts ExtSetModel ExtSetSpec ExtSetProofs.
Import ListNotations.
Local Open Scope Z_scope.

Definition ex_f (n : string) : ext_id := ExtId "extension:io.substrait:fn" n.
Definition ex_t (n : string) : ext_id := ExtId "extension:io.substrait:ty" n.
Definition ex_rs : list request :=
  [Req KFunc (ex_f "add:i32_i32"); Req KType (ex_t "point"); Req KFunc (ex_f "sub:i32_i32");
   Req KFunc (ex_f "add:i32_i32"); Req KVar (ex_t "v"); Req KFunc (ex_t "add:i32_i32")].

(** ** C22 *)

(** Any sequence of anchor requests on a new set succeeds.  The anchor returned for
    an id is its number, counting from 1, among the distinct ids of its kind in the
    order of their first request; decoding gives exactly the numbered ids, and URN
    anchors number the distinct URNs in order of first use. *)
Theorem C22_anchors_number_first_uses : forall rs,
  Z.of_nat (List.length rs) < 2 ^ 32 ->
  exists s l, run rs new_set = Ok (s, l) /\
    Forall2 (fun r a => numbered a (r_id r) (first_uses ext_id_dec (ids_of (r_kind r) rs))) rs l /\
    (forall k a id, decode k a s = Some id <-> numbered a id (first_uses ext_id_dec (ids_of k rs))) /\
    (forall a u, fm_get Z.eqb a (s_urns s) = Some u <->
       numbered a u (first_uses string_dec (map (fun r => id_urn (r_id r)) rs))).
Proof.
  intros rs Hb. destruct (run_inv rs Hb) as (s & l & E & Hs & HF).
  exists s, l. split; auto. split; [exact HF|].
  destruct Hs as ((_ & _ & HU & _) & (_ & _ & _ & _ & HT & _) & (_ & _ & _ & _ & HV & _) & (_ & _ & _ & _ & HFn & _)).
  split; [|exact HU].
  intros k a id. destruct k; [apply HT|apply HV|apply HFn].
Qed.

Example C22_nonvacuous : exists s, run ex_rs new_set = Ok (s, [1; 1; 2; 1; 1; 3]) /\
  decode KFunc 2 s = Some (ex_f "sub:i32_i32") /\ find_urn "extension:io.substrait:ty" (s_urns s) = Some 2.
Proof. eexists. vm_compute. repeat split. Qed.

Lemma Forall2_nth : forall A B (R : A -> B -> Prop) l l' i x y,
  Forall2 R l l' -> nth_error l i = Some x -> nth_error l' i = Some y -> R x y.
Proof.
  intros A B R l l' i x y H. revert i. induction H; intros [|i] H1 H2; simpl in *; try discriminate; eauto.
  congruence.
Qed.

(** Within a kind, two requests get the same anchor exactly when they name the same
    id; no anchor is zero. *)
Theorem C22_anchor_bijection : forall rs s l i j k id id' a a',
  Z.of_nat (List.length rs) < 2 ^ 32 -> run rs new_set = Ok (s, l) ->
  nth_error rs i = Some (Req k id) -> nth_error l i = Some a ->
  nth_error rs j = Some (Req k id') -> nth_error l j = Some a' ->
  (a = a' <-> id = id') /\ 0 < a < 2 ^ 32.
Proof.
  intros rs s l i j k id id' a a' Hb E Hi Hia Hj Hja.
  destruct (run_inv rs Hb) as (s0 & l0 & E' & _ & HF). rewrite E in E'. inversion E'; subst s0 l0.
  pose proof (Forall2_nth _ _ _ _ _ _ _ _ HF Hi Hia) as H1.
  pose proof (Forall2_nth _ _ _ _ _ _ _ _ HF Hj Hja) as H2.
  unfold answers in *; simpl in *. split; [split|].
  - intros ->. eapply numbered_fun; eauto.
  - intros ->. eapply numbered_inj; eauto. apply first_uses_nodup.
  - apply numbered_bound in H1. pose proof (fu_ids_bound k rs). lia.
Qed.

(** Every returned anchor decodes, at the end of the history, to the id it was
    returned for; nothing else decodes. *)
Theorem C22_decode_exactly_requested : forall rs s l k a id,
  Z.of_nat (List.length rs) < 2 ^ 32 -> run rs new_set = Ok (s, l) ->
  (decode k a s = Some id <->
   exists i, nth_error rs i = Some (Req k id) /\ nth_error l i = Some a).
Proof.
  intros rs s l k a id Hb E.
  destruct (C22_anchors_number_first_uses rs Hb) as (s0 & l0 & E' & HF & HD & _).
  rewrite E in E'. inversion E'; subst s0 l0. rewrite HD. split.
  - intros Hn. pose proof (numbered_in _ _ _ Hn) as Hi. apply first_uses_in, ids_of_in in Hi.
    apply In_nth_error in Hi as [i Hi]. exists i. split; auto.
    assert (exists b, nth_error l i = Some b) as [b Hb'].
    { assert (Hl : List.length rs = List.length l) by (clear -HF; induction HF; simpl; auto).
      assert (i < List.length l)%nat by (rewrite <- Hl; apply nth_error_Some; congruence).
      apply nth_error_Some in H. destruct (nth_error l i); eauto. congruence. }
    pose proof (Forall2_nth _ _ _ _ _ _ _ _ HF Hi Hb') as H. simpl in H.
    assert (a = b) by (eapply numbered_inj; eauto; apply first_uses_nodup). subst; auto.
  - intros (i & Hi & Ha). exact (Forall2_nth _ _ _ _ _ _ _ _ HF Hi Ha).
Qed.

(** Later requests never change what an earlier anchor decodes to. *)
Theorem C22_anchors_stable : forall rs rs' s l s' l' k a id,
  Z.of_nat (List.length (rs ++ rs')) < 2 ^ 32 ->
  run rs new_set = Ok (s, l) -> run rs' s = Ok (s', l') ->
  decode k a s = Some id -> decode k a s' = Some id.
Proof.
  intros rs rs' s l s' l' k a id Hb E E' Hd.
  assert (E2 : run (rs ++ rs') new_set = Ok (s', (l ++ l')%list)).
  { rewrite run_app, E. simpl. rewrite E'. auto. }
  assert (Hb' : Z.of_nat (List.length rs) < 2 ^ 32) by (rewrite app_length in Hb; lia).
  apply (C22_decode_exactly_requested rs s l k a id Hb' E) in Hd as (i & Hi & Ha).
  apply (C22_decode_exactly_requested _ _ _ k a id Hb E2). exists i.
  split; (rewrite nth_error_app1; [auto|]); apply nth_error_Some; congruence.
Qed.

(** The URN of every requested id can be found, and its anchor stands for it. *)
Theorem C22_urn_registered : forall rs s l r,
  Z.of_nat (List.length rs) < 2 ^ 32 -> run rs new_set = Ok (s, l) -> In r rs ->
  exists a, find_urn (id_urn (r_id r)) (s_urns s) = Some a /\
            fm_get Z.eqb a (s_urns s) = Some (id_urn (r_id r)) /\ 0 < a.
Proof.
  intros rs s l r Hb E Hi.
  destruct (run_inv rs Hb) as (s0 & l0 & E' & ((_ & HN & HU & _) & _) & _).
  rewrite E in E'. inversion E'; subst s0 l0.
  assert (Hin : In (id_urn (r_id r)) (first_uses string_dec (urns_of rs))).
  { apply first_uses_in. unfold urns_of. apply in_map_iff. eauto. }
  apply in_numbered in Hin as (b & Hn & _). apply HU in Hn.
  destruct (find_urn (id_urn (r_id r)) (s_urns s)) as [a|] eqn:F.
  - exists a. split; auto. apply find_urn_some in F. apply in_get with (eqb := Z.eqb) in F; auto.
    + split; auto. apply HU in F. apply numbered_bound in F. lia.
    + apply zspec.
  - exfalso. eapply find_urn_none; eauto. apply get_some_in in Hn; eauto. apply zspec.
Qed.

(** ** C23 *)

(** What reading a plan's tables yields: an error exactly when some declaration's
    URN reference is missing or its URN is not in the collection (never a panic);
    otherwise, for every anchor and every id, what the last declaration says. *)
Theorem C23_read_exact : forall loaded us ds,
  (Forall (usable loaded us) ds /\ exists s, get_extension_set loaded us ds = Ok s /\
     (forall a, fm_get Z.eqb a (s_urns s) = urn_at us a) /\
     (forall k a, decode k a s = last_at us ds k a) /\
     (forall k id, fm_get ext_id_eqb id (anchors k s) = last_for us ds k id)) \/
  (~ Forall (usable loaded us) ds /\ get_extension_set loaded us ds = Err).
Proof.
  intros loaded us ds. destruct (read_decls_char loaded us ds) as [(H & s & E & Hu & Hd & Ha)|H]; auto.
  left. split; auto. exists s. split; auto. split; auto. intros a. rewrite Hu. apply read_urns_get.
Qed.

Definition ex_us := [UrnMsg 4 "extension:io.substrait:fn"; UrnMsg 1 "extension:io.substrait:ty"].
Example C23_read_nonvacuous : exists s,
  get_extension_set (fun _ => true) ex_us [DFunc 4 7 "add:i32_i32"; DType 1 3 "point"; DVar 1 3 "v"] = Ok s /\
  decode KFunc 7 s = Some (ex_f "add:i32_i32") /\ decode KType 3 s = Some (ex_t "point") /\
  get_extension_set (fun _ => true) ex_us [DFunc 2 7 "add:i32_i32"] = Err.
Proof. eexists. vm_compute. repeat split. Qed.

(** Writing a set built by any history of requests and reading it back (against a
    collection that has the URNs) gives a set that answers every query alike,
    whatever order Go iterates its maps in. *)
Theorem C23_write_read_roundtrip_partial : forall loaded rs s l iu it iv jf shuf us ds,
  Z.of_nat (List.length rs) < 2 ^ 32 -> run rs new_set = Ok (s, l) ->
  (forall r, In r rs -> loaded (id_urn (r_id r)) = true) ->
  Permutation (s_urns s) iu -> Permutation (s_types s) it -> Permutation (s_vars s) iv ->
  Permutation (s_funcs s) jf -> (forall x, Permutation (shuf x) x) ->
  to_proto iu it iv jf shuf = Ok (us, ds) ->
  exists s', get_extension_set loaded us ds = Ok s' /\ same_answers s s'.
Proof.
  intros loaded rs s l iu it iv jf shuf us ds Hb E HL.
  destruct (run_inv rs Hb) as (s0 & l0 & E' & Hs & _). rewrite E in E'. inversion E'; subst s0 l0.
  apply round_trip.
  - eapply sinv_set_ok; eauto.
  - intros a u Hg. destruct Hs as ((_ & _ & HU & _) & _). apply HU in Hg.
    apply numbered_in, first_uses_in in Hg. unfold urns_of in Hg.
    apply in_map_iff in Hg as (r & <- & Hr). auto.
Qed.

(** The same for any set whose tables are consistent, for instance one read from a
    plan with distinct anchors and ids. *)
Theorem C23_write_read_roundtrip_consistent : forall loaded s iu it iv jf shuf us ds,
  NoDup (fm_keys (s_urns s)) ->
  (forall a b u, fm_get Z.eqb a (s_urns s) = Some u -> fm_get Z.eqb b (s_urns s) = Some u -> a = b) ->
  (forall k, NoDup (fm_keys (anchors k s))) ->
  (forall k a id, decode k a s = Some id <-> fm_get ext_id_eqb id (anchors k s) = Some a) ->
  (forall k id a, fm_get ext_id_eqb id (anchors k s) = Some a ->
     exists b, fm_get Z.eqb b (s_urns s) = Some (id_urn id)) ->
  (forall a u, fm_get Z.eqb a (s_urns s) = Some u -> loaded u = true) ->
  Permutation (s_urns s) iu -> Permutation (s_types s) it -> Permutation (s_vars s) iv ->
  Permutation (s_funcs s) jf -> (forall x, Permutation (shuf x) x) ->
  to_proto iu it iv jf shuf = Ok (us, ds) ->
  exists s', get_extension_set loaded us ds = Ok s' /\ same_answers s s'.
Proof.
  intros loaded s iu it iv jf shuf us ds H1 H2 H3 H4 H5 H6. apply round_trip; auto.
  split; auto. split; auto.
  split; [|split]; split.
  - apply (H3 KType).
  - split; [apply (H4 KType)|apply (H5 KType)].
  - apply (H3 KVar).
  - split; [apply (H4 KVar)|apply (H5 KVar)].
  - apply (H3 KFunc).
  - split; [apply (H4 KFunc)|apply (H5 KFunc)].
Qed.

(** Writing panics exactly when the set has a type and at least two type variations
    (it never returns an error). *)
Theorem C23_write_panics_iff : forall iu it iv jf shuf,
  to_proto iu it iv jf shuf <> Err /\
  (to_proto iu it iv jf shuf = Panic <-> (1 <= List.length it /\ 2 <= List.length iv)%nat).
Proof.
  intros. unfold to_proto.
  assert (L : List.length (isort decl_anchor (map (fun kv : ext_id * Z =>
     DType (back (urn_back_ref iu) (id_urn (fst kv))) (snd kv) (id_name (fst kv))) it)) = List.length it).
  { rewrite (Permutation_length (isort_perm _ _ _)), map_length. auto. }
  rewrite L, map_length.
  destruct (1 <=? Z.of_nat (List.length it)) eqn:E1; simpl.
  - destruct (2 <=? Z.of_nat (List.length iv)) eqn:E2; split; try discriminate.
    + apply Z.leb_le in E1, E2. split; auto. intros _. lia.
    + apply Z.leb_gt in E2. split; [discriminate|lia].
  - split; [discriminate|]. apply Z.leb_gt in E1. split; [discriminate|lia].
Qed.

(** Finding: so the round trip fails for some reachable sets, whatever the map
    iteration order. *)
Theorem C23_write_panics_refuted : exists rs s l,
  run rs new_set = Ok (s, l) /\
  forall iu it iv jf shuf,
    Permutation (s_types s) it -> Permutation (s_vars s) iv ->
    to_proto iu it iv jf shuf = Panic.
Proof.
  exists [Req KType (ex_t "point"); Req KVar (ex_t "a"); Req KVar (ex_t "b")].
  eexists _, _. split; [vm_compute; reflexivity|].
  intros iu it iv jf shuf Ht Hv. apply C23_write_panics_iff.
  apply Permutation_length in Ht. apply Permutation_length in Hv. simpl in *. lia.
Qed.

(** The written URN table lists exactly the set's URNs by increasing anchor, and the
    written declarations are exactly the set's, types (by increasing anchor) first,
    then variations (by increasing anchor), then functions. *)
Theorem C23_written_form : forall s iu it iv jf shuf us ds,
  NoDup (map fst (s_urns s)) -> NoDup (map snd (s_types s)) -> NoDup (map snd (s_vars s)) ->
  Permutation (s_urns s) iu -> Permutation (s_types s) it -> Permutation (s_vars s) iv ->
  Permutation (s_funcs s) jf -> (forall x, Permutation (shuf x) x) ->
  to_proto iu it iv jf shuf = Ok (us, ds) ->
  increasing (map um_anchor us) /\
  Permutation (map (fun u => (um_anchor u, um_urn u)) us) (s_urns s) /\
  exists ts vs fs, ds = (ts ++ vs ++ fs)%list /\
    increasing (map decl_anchor ts) /\ increasing (map decl_anchor vs) /\
    Permutation (map decl_parts ts) (map (fun kv => Some (KType, back (urn_back_ref iu) (id_urn (fst kv)), snd kv, id_name (fst kv))) (s_types s)) /\
    Permutation (map decl_parts vs) (map (fun kv => Some (KVar, back (urn_back_ref iu) (id_urn (fst kv)), snd kv, id_name (fst kv))) (s_vars s)) /\
    Permutation (map decl_parts fs) (map (fun kv => Some (KFunc, back (urn_back_ref iu) (id_urn (fst kv)), snd kv, id_name (fst kv))) (s_funcs s)) /\
    (ts = [] -> vs = [] -> NoDup (map snd (s_funcs s)) -> increasing (map decl_anchor fs)).
Proof.
  intros s iu it iv jf shuf us ds Nu Nt Nv Pu Pt Pv Pf Psh E. unfold to_proto in E.
  match type of E with (if ?b then _ else _) = _ => destruct b; [discriminate|] end.
  inversion E; subst us ds; clear E. split; [|split].
  - apply isort_increasing. rewrite map_map. simpl.
    eapply Permutation_NoDup; [apply Permutation_map; eauto|auto].
  - rewrite isort_perm, map_map. simpl. rewrite (map_ext _ (fun x => x)) by (intros []; auto).
    rewrite map_id. apply Permutation_sym; auto.
  - eexists _, _, _. split; [rewrite app_assoc; reflexivity|].
    assert (Hinc : forall (mk : Z -> Z -> string -> decl_msg) e e', (forall r a n, decl_anchor (mk r a n) = a) ->
      NoDup (map snd e) -> Permutation e e' ->
      increasing (map decl_anchor (isort decl_anchor (map (fun kv : ext_id * Z =>
         mk (back (urn_back_ref iu) (id_urn (fst kv))) (snd kv) (id_name (fst kv))) e')))).
    { intros mk e e' Hmk Hn Hp. apply isort_increasing. rewrite map_map.
      rewrite (map_ext _ snd) by (intros; apply Hmk).
      eapply Permutation_NoDup; [apply Permutation_map; eauto|auto]. }
    split; [apply (Hinc DType (s_types s)); auto|].
    split; [apply (Hinc DVar (s_vars s)); auto|].
    split; [rewrite isort_perm, map_map; simpl; apply Permutation_map, Permutation_sym; auto|].
    split; [rewrite isort_perm, map_map; simpl; apply Permutation_map, Permutation_sym; auto|].
    split.
    + transitivity (map decl_parts (map (fun kv : ext_id * Z =>
         DFunc (back (urn_back_ref iu) (id_urn (fst kv))) (snd kv) (id_name (fst kv))) jf)).
      { apply Permutation_map.
        match goal with |- Permutation (match ?x with _ => _ end) _ => destruct x end;
          [apply isort_perm|apply Psh]. }
      rewrite map_map. simpl. apply Permutation_map, Permutation_sym; auto.
    + intros -> -> Hn. apply (Hinc DFunc (s_funcs s)); auto.
Qed.

(** ** C24 *)

(** What one request does to an arbitrary set (for instance one read from a plan).
    A known id gets its anchor and nothing changes.  A new id gets the anchor
    "number of known ids + 1", which from then on decodes to it; all other anchors of
    all kinds decode as before and all other ids keep their anchors.  It panics
    exactly when the id's URN is new and the URN anchor "number of URNs + 1" is
    taken. *)
Theorem C24_request_effect : forall r s,
  (forall k, fm_len (anchors k s) < 2 ^ 32 - 1) -> fm_len (s_urns s) < 2 ^ 32 - 1 ->
  match fm_get ext_id_eqb (r_id r) (anchors (r_kind r) s) with
  | Some a => get_anchor r s = Ok (s, a)
  | None =>
      let a := fm_len (anchors (r_kind r) s) + 1 in
      let ua := fm_len (s_urns s) + 1 in
      let known := exists b, In (b, id_urn (r_id r)) (s_urns s) in
      (get_anchor r s = Panic <-> ~ known /\ fm_get Z.eqb ua (s_urns s) <> None) /\
      get_anchor r s <> Err /\
      forall s' a', get_anchor r s = Ok (s', a') ->
        a' = a /\
        decode (r_kind r) a s' = Some (r_id r) /\
        (forall k b, (k, b) <> (r_kind r, a) -> decode k b s' = decode k b s) /\
        fm_get ext_id_eqb (r_id r) (anchors (r_kind r) s') = Some a /\
        (forall k id, (k, id) <> (r_kind r, r_id r) ->
           fm_get ext_id_eqb id (anchors k s') = fm_get ext_id_eqb id (anchors k s)) /\
        (known -> s_urns s' = s_urns s) /\
        (~ known -> forall b, fm_get Z.eqb b (s_urns s') =
           if b =? ua then Some (id_urn (r_id r)) else fm_get Z.eqb b (s_urns s))
  end.
Proof.
  intros r s Ha Hu. destruct (fm_get ext_id_eqb (r_id r) (anchors (r_kind r) s)) as [a|] eqn:E.
  - apply get_anchor_known; auto.
  - cbv zeta. rewrite (get_anchor_new _ _ E).
    assert (Hw : uwrap 32 (uwrap 32 (fm_len (anchors (r_kind r) s)) + 1) = fm_len (anchors (r_kind r) s) + 1).
    { assert (0 <= fm_len (anchors (r_kind r) s)) by (unfold fm_len; lia).
      specialize (Ha (r_kind r)). rewrite (uwrap_small (fm_len _)) by lia. apply uwrap_small. lia. }
    cbv zeta. rewrite Hw.
    assert (Heff : forall u s' a', Ok (apply_entry (r_kind r, fm_len (anchors (r_kind r) s) + 1, r_id r) (with_urns u s),
          fm_len (anchors (r_kind r) s) + 1) = Ok (s', a') ->
        s_urns s' = u /\
        a' = fm_len (anchors (r_kind r) s) + 1 /\
        decode (r_kind r) a' s' = Some (r_id r) /\
        (forall k b, (k, b) <> (r_kind r, a') -> decode k b s' = decode k b s) /\
        fm_get ext_id_eqb (r_id r) (anchors (r_kind r) s') = Some a' /\
        (forall k id, (k, id) <> (r_kind r, r_id r) ->
           fm_get ext_id_eqb id (anchors k s') = fm_get ext_id_eqb id (anchors k s))).
    { intros u s' a' H.
      set (ss := apply_entry (r_kind r, fm_len (anchors (r_kind r) s) + 1, r_id r) (with_urns u s)) in H.
      assert (s' = ss /\ a' = fm_len (anchors (r_kind r) s) + 1) as [-> ->] by (split; congruence).
      unfold ss; clear H ss.
      split; [rewrite apply_entry_urns; reflexivity|]. split; auto. rewrite !decode_tbl, !apply_entry_dec, !apply_entry_enc.
      destruct (kind_dec (r_kind r) (r_kind r)); [|congruence].
      split; [apply get_set_same, zspec|]. split.
      - intros k b Hne. rewrite !decode_tbl, apply_entry_dec, with_urns_dec.
        destruct (kind_dec (r_kind r) k); auto. apply get_set_other; [apply zspec|]. congruence.
      - split; [apply get_set_same, ext_id_eqb_spec|].
        intros k id Hne. rewrite apply_entry_enc, with_urns_enc.
        destruct (kind_dec (r_kind r) k); auto. apply get_set_other; [apply ext_id_eqb_spec|]. congruence. }
    destruct (add_or_get_cases (id_urn (r_id r)) (s_urns s) Hu) as
      [(b & Hi & ->)|[(Hn & Hf & ->)|(Hn & Hf & ->)]].
    + split; [split; [discriminate|intros [H _]; exfalso; eauto]|]. split; [discriminate|].
      intros s' a' H. destruct (Heff _ _ _ H) as (H0 & -> & H1 & H2 & H3 & H4). repeat split; auto.
      intros Hc. exfalso; eauto.
    + split; [split; [discriminate|intros [_ H]; congruence]|]. split; [discriminate|].
      intros s' a' H. destruct (Heff _ _ _ H) as (H0 & -> & H1 & H2 & H3 & H4). repeat split; auto.
      * intros [b Hb]. exfalso; eapply Hn; eauto.
      * intros _ b. rewrite H0. destruct (Z.eqb_spec b (fm_len (s_urns s) + 1)); subst.
        -- apply get_set_same, zspec.
        -- apply get_set_other; auto. apply zspec.
    + split; [split; auto|].
      * intros _. split; auto. intros [b Hb]. eapply Hn; eauto.
      * split; [discriminate|]. intros; discriminate.
Qed.

(** Finding: on a set read from a plan whose anchors are distinct but have a gap, a
    new function is given an anchor the plan already uses for another function, and
    that anchor no longer decodes to the plan's function. *)
Theorem C24_gap_anchor_reused_refuted : exists us ds s r s' a id,
  get_extension_set (fun _ => true) us ds = Ok s /\
  increasing (map decl_anchor ds) /\
  decode (r_kind r) a s = Some id /\ id <> r_id r /\
  get_anchor r s = Ok (s', a) /\
  decode (r_kind r) a s' = Some (r_id r) /\
  get_anchor (Req (r_kind r) id) s' = Ok (s', a).
Proof.
  exists [UrnMsg 1 "extension:io.substrait:fn"], [DFunc 1 2 "add:i32_i32"].
  eexists. exists (Req KFunc (ex_f "sub:i32_i32")). eexists. exists 2, (ex_f "add:i32_i32").
  split; [vm_compute; reflexivity|]. split; [split; [intros y []|exact I]|].
  split; [reflexivity|]. split; [discriminate|].
  split; [vm_compute; reflexivity|]. split; vm_compute; reflexivity.
Qed.

(** The same for URN anchors, where the request panics. *)
Theorem C24_gap_urn_panics_refuted : exists us s r,
  get_extension_set (fun _ => true) us [] = Ok s /\
  increasing (map um_anchor us) /\ get_anchor r s = Panic.
Proof.
  exists [UrnMsg 2 "extension:io.substrait:fn"]. eexists. exists (Req KFunc (ex_t "f")).
  split; [vm_compute; reflexivity|]. split; [split; [intros y []|exact I]|].
  vm_compute; reflexivity.
Qed.

(** What holds: if the anchors already in the set of the requested kind and the URN
    anchors do not exceed their number (as when a plan numbers them 1..n), no anchor
    in use is ever reused and no request panics. *)
Theorem C24_no_gap_no_reuse_partial : forall r s,
  (forall k, fm_len (anchors k s) < 2 ^ 32 - 1) -> fm_len (s_urns s) < 2 ^ 32 - 1 ->
  (forall b id, decode (r_kind r) b s = Some id -> b <= fm_len (anchors (r_kind r) s)) ->
  (forall b u, fm_get Z.eqb b (s_urns s) = Some u -> b <= fm_len (s_urns s)) ->
  exists s' a, get_anchor r s = Ok (s', a) /\
    forall k b id, decode k b s = Some id -> decode k b s' = Some id.
Proof.
  intros r s Ha Hu Hd Hub. pose proof (C24_request_effect r s Ha Hu) as H.
  destruct (fm_get ext_id_eqb (r_id r) (anchors (r_kind r) s)) as [a|] eqn:E.
  - eexists _, _. split; eauto.
  - destruct H as (Hp & He & Hok).
    destruct (get_anchor r s) as [[s' a]| |] eqn:G; [|congruence|].
    + exists s', a. split; auto. destruct (Hok _ _ eq_refl) as (-> & _ & Hs & _).
      intros k b id Hk. rewrite Hs; auto. intros Heq. inversion Heq; subst.
      apply Hd in Hk. lia.
    + exfalso. destruct (proj1 Hp eq_refl) as [_ Hc].
      destruct (fm_get Z.eqb (fm_len (s_urns s) + 1) (s_urns s)) as [u|] eqn:G2; [|congruence].
      apply Hub in G2. lia.
Qed.

Example C24_no_gap_nonvacuous : exists s s', 
  get_extension_set (fun _ => true) [UrnMsg 1 "extension:io.substrait:fn"]
    [DFunc 1 1 "add:i32_i32"; DFunc 1 2 "sub:i32_i32"] = Ok s /\
  (forall b id, decode KFunc b s = Some id -> b <= fm_len (anchors KFunc s)) /\
  get_anchor (Req KFunc (ex_t "f")) s = Ok (s', 3).
Proof.
  eexists _, _. split; [vm_compute; reflexivity|]. split; [|vm_compute; reflexivity].
  intros b id. unfold decode, decode_func. simpl.
  destruct (Z.eqb_spec b 2); [subst; intros _; vm_compute; discriminate|].
  destruct (Z.eqb_spec b 1); [subst; intros _; vm_compute; discriminate|]. discriminate.
Qed.

Print Assumptions C22_anchors_number_first_uses.
Print Assumptions C22_anchor_bijection.
Print Assumptions C22_decode_exactly_requested.
Print Assumptions C22_anchors_stable.
Print Assumptions C22_urn_registered.
Print Assumptions C23_read_exact.
Print Assumptions C23_write_read_roundtrip_partial.
Print Assumptions C23_write_read_roundtrip_consistent.
Print Assumptions C23_write_panics_iff.
Print Assumptions C23_write_panics_refuted.
Print Assumptions C23_written_form.
Print Assumptions C24_request_effect.
Print Assumptions C24_gap_anchor_reused_refuted.
Print Assumptions C24_gap_urn_panics_refuted.
Print Assumptions C24_no_gap_no_reuse_partial.
