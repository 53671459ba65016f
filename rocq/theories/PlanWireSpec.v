(** Specification of the wire forms of relations (C32, C33): which relations survive. *)

From Coq Require Import ZArith String Bool Arith List.
From Verif Require Import Base TypesModel TypesSpec ExtSetModel LoadModel LitModel LitSpec ExprModel ExprSpec
  PlanModel PlanSpec.
Import ListNotations.
Local Open Scope Z_scope.

(** the schema of a table has no unknown types, and its types survive *)
Definition schema_ok (sch : schema) : Prop := exists ts, sc_types sch = map XTy ts /\ Forall wire_type ts.

(** a snapshot is named by an id or by a time, not by both *)
Definition snapshot_ok (d : direct) : Prop := ic_id d = ""%string \/ ic_ts d = 0.

Definition kind_ok {E} (ok : E -> Prop) (k : rkind E) : Prop :=
  match k with
  | KNamed _ _ | KExtTable _ => True
  | KVirtual rows => All (All ok) rows
  | KIceberg d => snapshot_ok d
  | KFiles items _ => Forall (fun f => 0 <= fl_ptype f <= 3) items
  end.

(** a clause that may be left out *)
Definition absent_or (ok : expr rel -> Prop) (e : expr rel) : Prop := e = ELit LNil \/ ok e.

(** the definition of an extension relation can be written, and what is written is read as
    the same definition: by the decoder registered for its type URL, or undecoded *)
Definition def_ok (decoders : string -> option (any -> res extdef)) (inputs : list (res (list xtype)))
  (d : extdef) : Prop :=
  exists a, match d with DUndecoded x => a = x | DUser _ build => build inputs = Ok a end /\
    match decoders (match a with Some (url, _) => url | None => EmptyString end) with
    | Some dec => dec a = Ok d
    | None => d = DUndecoded a
    end.

Section Survive.
Variable canon : string -> option string.
Variable c : coll.
Variable decoders : string -> option (any -> res extdef).
Variable s : eset.

(** [agg_survives] of ExprSpec.v, as a recursive conjunction *)
Definition agg_ok (base : option (list xtype)) (rel_ok : rel -> Prop) (a : aggf rel) : Prop :=
  match ag_decl a with
  | Some v => exists id, decode_func (ag_ref a) s = Some id /\ get_agg c id = Some v
  | None => exists id v, decode_func (ag_ref a) s = Some id /\ get_agg c id = None /\
                         resolves (get_agg c) canon "NONE" "" s (ag_ref a) v
  end /\
  All (fun x => match x with
                | AEnum _ => True
                | AType t => arg_wire_type t
                | AExpr e => survives rel_type canon c base s rel_ok e
                end) (ag_args a) /\
  wire_type (ag_out a) /\
  All (fun p => match p with (e, k) => survives rel_type canon c base s rel_ok e /\ k <> SK_nil end) (ag_sorts a).

Definition measure_ok (base : option (list xtype)) (rel_ok : rel -> Prop) (m : measure rel) : Prop :=
  match ms_fn m with
  | None => False
  | Some f => agg_ok base rel_ok f
  end /\ absent_or (survives rel_type canon c base s rel_ok) (ms_filter m).

(** a reference of a join key, resolved against its own side *)
Definition side_ok (base : list xtype) (rel_ok : rel -> Prop) (f : fref rel) : Prop :=
  match fr_root f with RExpr e => survives rel_type canon c (Some base) s rel_ok e | _ => True end /\
  known_ok rel_type (Some base) (fr_root f) (fr_ref f) (fr_known f).
Definition key_ok (lt rt : list xtype) (rel_ok : rel -> Prop) (k : jkey rel) : Prop :=
  side_ok lt rel_ok (k_left k) /\ side_ok rt rel_ok (k_right k).

(** Which relations survive: those whose parts survive, each expression read against the
    columns the code reads it against. *)
Fixpoint rel_survives (r : rel) : Prop :=
  match r with
  | RRead cm b k =>
      schema_ok (rb_schema b) /\
      absent_or (survives rel_type canon c (Some (sc_types (rb_schema b))) s rel_survives) (rb_filter b) /\
      absent_or (survives rel_type canon c (Some (sc_types (rb_schema b))) s rel_survives) (rb_best b) /\
      match rb_proj b with None => True | Some m => mask_ok m end /\
      kind_ok (survives rel_type canon c None s rel_survives) k
  | RProject cm i es v =>
      rel_survives i /\ es <> [] /\
      match rel_type i with
      | Ok cols => All (survives rel_type canon c (Some cols) s rel_survives) es
      | _ => False
      end
  | RJoin cm l r e p jt v =>
      rel_survives l /\ rel_survives r /\ jt <> 0 /\
      match rel_type l, rel_type r with
      | Ok lt, Ok rt =>
          survives rel_type canon c (Some (lt ++ rt)%list) s rel_survives e /\
          absent_or (survives rel_type canon c (Some (lt ++ rt)%list) s rel_survives) p
      | _, _ => False
      end
  | RCross cm l r v => rel_survives l /\ rel_survives r
  | RFetch cm i o n v => rel_survives i
  | RAgg cm i ms es gs v =>
      rel_survives i /\ (es = [] -> Forall (fun g => g = []) gs) /\
      match rel_type i with
      | Ok cols =>
          All (survives rel_type canon c (Some cols) s rel_survives) es /\
          All (measure_ok (Some cols) rel_survives) ms
      | _ => False
      end
  | RSort cm i ss v =>
      rel_survives i /\ ss <> [] /\
      match rel_type i with
      | Ok cols => All (fun p => match p with (e, k) =>
                          survives rel_type canon c (Some cols) s rel_survives e /\ k <> SK_nil end) ss
      | _ => False
      end
  | RFilter cm i e v =>
      rel_survives i /\
      match rel_type i with
      | Ok cols => survives rel_type canon c (Some cols) s rel_survives e
      | _ => False
      end
  | RSet cm is op v =>
      All rel_survives is /\ op <> 0 /\
      match is with
      | a :: b :: l => exists t, rel_type a = Ok t /\
          Forall (fun x => exists t', rel_type x = Ok t' /\ record_eq t' t = Ok true) (b :: l)
      | _ => False
      end
  | RExt1 cm i d => rel_survives i /\ def_ok decoders [rel_type i] d
  | RExt0 cm d => def_ok decoders [] d
  | RExtN cm is d => All rel_survives is /\ def_ok decoders (map rel_type is) d
  | RHash cm l r ks p jt v | RMerge cm l r ks p jt v =>
      rel_survives l /\ rel_survives r /\ -128 <= jt <= 127 /\
      match rel_type l, rel_type r with
      | Ok lt, Ok rt =>
          All (key_ok lt rt rel_survives) ks /\
          absent_or (fun e =>
            match c_map cm with
            | None => survives rel_type canon c (Some (lt ++ rt)%list) s rel_survives e
            | Some m => exists cols, picks m (lt ++ rt)%list cols /\
                                     survives rel_type canon c (Some cols) s rel_survives e
            end) p
      | _, _ => False
      end
  | RWrite cm ns w sch op i md =>
      rel_survives i /\ schema_ok sch /\ In op [1; 2; 4] /\ md = 0
  end.
End Survive.

(** ** join keys (C33) *)

(** the message of a field reference: what the reference is written as inside an expression *)
Definition ref_form (f : fref rel) (p : option (pfref prel)) : Prop :=
  exists p', p = Some p' /\
    expr_to_proto rel_to_proto (ERef (fr_root f) (fr_ref f) (fr_known f)) = Ok (PX_sel (pfr_root p') (pfr_ref p')).
Definition cmp_form (k : keycmp) (p : pcmp) : Prop :=
  match k with CmpSimple t => p = PC_simple t | CmpCustom f => p = PC_custom f end.
Definition key_form (k : jkey rel) (p : pkey prel) : Prop :=
  ref_form (k_left k) (pk_left p) /\ ref_form (k_right k) (pk_right p) /\ cmp_form (k_cmp k) (pk_cmp p).
(** equality is comparison 1 *)
Definition equality_key {R} (k : jkey R) : Prop := k_cmp k = CmpSimple 1.
(** the deprecated lists of references beside the keys: filled exactly when they say it all *)
Definition legacy_form (ks : list (jkey rel)) (ps : list (pkey prel)) (lk rk : list (option (pfref prel))) : Prop :=
  (Forall equality_key ks -> lk = map pk_left ps /\ rk = map pk_right ps) /\
  (~ Forall equality_key ks -> lk = [] /\ rk = []).

(** ** what a message says (C32)

    [says d m r]: field by field, message [m] and relation [r] have the same contents, where
    expressions, types and masks correspond by being written as, or read from, each other. *)
Inductive direction := Writing | Reading.

Section Says.
Variable canon : string -> option string.
Variable c : coll.
Variable decoders : string -> option (any -> res extdef).
Variable d : direction.

(** written as [m]; read from [m] against the columns [base] *)
Definition expr_says (base : option (list xtype)) (m : pexpr prel) (e : expr rel) : Prop :=
  match d with
  | Writing => expr_to_proto rel_to_proto e = Ok m
  | Reading => exists s s',
      expr_from_proto rel_type (Some (rel_from_proto canon c decoders)) canon c base m s = Ok (e, s')
  end.
Definition clause_says (base : option (list xtype)) (m : pexpr prel) (e : expr rel) : Prop :=
  (m = PX_nil /\ e = ELit LNil) \/ (m <> PX_nil /\ expr_says base m e).
Definition agg_says (base : option (list xtype)) (m : paggf prel) (a : aggf rel) : Prop :=
  match d with
  | Writing => agg_to_proto rel_to_proto a = Ok m
  | Reading => exists s s',
      agg_from_proto rel_type (Some (rel_from_proto canon c decoders)) canon c base m s = Ok (a, s')
  end.
Definition measure_says (base : option (list xtype)) (m : option (paggf prel) * pexpr prel) (x : measure rel) : Prop :=
  exists f a, fst m = Some f /\ ms_fn x = Some a /\ agg_says base f a /\ clause_says base (snd m) (ms_filter x).
Definition sort_says (base : option (list xtype)) (m : pexpr prel * psortkind) (x : expr rel * sortkind) : Prop :=
  expr_says base (fst m) (fst x) /\
  match snd m, snd x with
  | PSK_dir a, SK_dir b => a = b
  | PSK_func a, SK_func b => a = b
  | PSK_unset, SK_nil => d = Writing
  | _, _ => False
  end.
Definition mask_says (m : option pmask) (x : option mask) : Prop :=
  match m, x with
  | None, None => True
  | Some m, Some x => match d with Writing => mask_to_proto x = Ok m | Reading => mask_from_proto m = Ok x end
  | _, _ => False
  end.
Definition column_says (m : ptype) (x : xtype) : Prop :=
  exists t, x = XTy t /\ match d with Writing => type_to_proto t = Ok m | Reading => type_from_proto m = Ok t end.
Definition schema_says (m : option pnamed_struct) (x : schema) : Prop :=
  match m with
  | None => d = Reading /\ x = Schema [] 0 0 []
  | Some (PNamedStruct names None) => False
  | Some (PNamedStruct names (Some (n, v, ts))) =>
      sc_names x = names /\ sc_null x = n /\ sc_var x = v /\ Forall2 column_says ts (sc_types x)
  end.

(** no common part means no mapping; relation kinds that insist on one have [needed] *)
Definition common_says (needed : bool) (m : option pcommon) (x : common) : Prop :=
  match m with
  | None => d = Reading /\ needed = false /\ x = Common None None None
  | Some m =>
      c_hint x = pc_hint m /\ c_adv x = pc_adv m /\
      match pc_emit m with
      | PE_emit l => c_map x = l
      | PE_direct => c_map x = None
      | PE_unset => d = Reading /\ c_map x = None
      end
  end.

Definition file_says (m : pfile) (x : file) : Prop :=
  pf_part m = fl_part x /\ pf_start m = fl_start x /\ pf_len m = fl_len x /\ pf_format m = fl_format x /\
  match pf_path m with
  | PP_path s => fl_ptype x = 0 /\ fl_path x = s
  | PP_glob s => fl_ptype x = 1 /\ fl_path x = s
  | PP_file s => fl_ptype x = 2 /\ fl_path x = s
  | PP_folder s => fl_ptype x = 3 /\ fl_path x = s
  | PP_unset => match d with
                | Writing => ~ 0 <= fl_ptype x <= 3
                | Reading => fl_ptype x = 0 /\ fl_path x = ""%string
                end
  end.
Definition snapshot_says (m : string * psnap) (x : direct) : Prop :=
  ic_uri x = fst m /\
  match snd m with
  | PSn_id i => ic_id x = i /\ (d = Reading -> ic_ts x = 0)
  | PSn_ts t => ic_ts x = t /\ ic_id x = ""%string
  | PSn_unset => ic_ts x = 0 /\ ic_id x = ""%string
  end.
Definition lit_row_says (m : list plit) (x : list (expr rel)) : Prop :=
  exists ls, x = map ELit ls /\ Forall2 (fun p l => lit_from_proto p = Ok l) m ls.
Inductive kind_says : pread (pexpr prel) -> rkind (expr rel) -> Prop :=
| KS_named : forall names adv, kind_says (PRd_named names adv) (KNamed names adv)
| KS_rows : forall ms xs, Forall2 (Forall2 (expr_says None)) ms xs -> kind_says (PRd_virtual [] ms) (KVirtual xs)
| KS_lits : forall ms xs, d = Reading -> Forall2 lit_row_says ms xs -> kind_says (PRd_virtual ms []) (KVirtual xs)
| KS_ext : forall a, kind_says (PRd_ext a) (KExtTable a)
| KS_iceberg : forall m x, snapshot_says m x -> kind_says (PRd_iceberg (Some m)) (KIceberg x)
| KS_files : forall ms xs adv, Forall2 file_says ms xs -> kind_says (PRd_files ms adv) (KFiles xs adv).

(** expressions are read against the columns of the inputs *)
Definition scope (base : option (list xtype)) (l : list rel) : Prop :=
  match d with
  | Writing => True
  | Reading => exists ts, Forall2 (fun r t => rel_type r = Ok t) l ts /\ base = Some (List.concat ts)
  end.
Definition mapped_scope (base : option (list xtype)) (m : option (list Z)) (l : list rel) : Prop :=
  match d with
  | Writing => True
  | Reading => exists ts, Forall2 (fun r t => rel_type r = Ok t) l ts /\
      match m with
      | None => base = Some (List.concat ts)
      | Some m => exists out, picks m (List.concat ts) out /\ base = Some out
      end
  end.

Definition def_says (inputs : list rel) (a : any) (x : extdef) : Prop :=
  match d with
  | Writing => match x with DUndecoded y => a = y | DUser _ build => build (map rel_type inputs) = Ok a end
  | Reading => match decoders (match a with Some (url, _) => url | None => EmptyString end) with
               | Some dec => dec a = Ok x
               | None => x = DUndecoded a
               end
  end.

Definition groups_say (base : option (list xtype)) (ms : list (pexpr prel)) (gs : list (list (pexpr prel) * list Z))
  (es : list (expr rel)) (refs : list (list Z)) : Prop :=
  match d, ms with
  | Reading, [] =>
      (* the deprecated form: expressions inside the groups *)
      exists groups, Forall2 (fun g x => Forall2 (expr_says base) (fst g) x) gs groups /\
        grouping_exprs fresh_equals groups = Ok (es, refs)
  | _, _ =>
      Forall2 (expr_says base) ms es /\ refs = map snd gs /\ (d = Writing -> Forall (fun g => fst g = []) gs)
  end.

Definition keys_say (ms : list (pkey prel)) (lk rk : list (option (pfref prel))) (ks : list (jkey rel)) : Prop :=
  match d with
  | Writing => Forall2 key_form ks ms /\ legacy_form ks ms lk rk
  | Reading =>
      match ms with
      | [] => List.length lk = List.length ks /\ List.length rk = List.length ks /\ Forall equality_key ks
      | _ => Forall2 (fun k m => cmp_form (k_cmp k) (pk_cmp m)) ks ms
      end
  end.
(** physical join types are kept in eight bits *)
Definition phys_says (m x : Z) : Prop :=
  match d with Writing => m = x | Reading => -128 <= x <= 127 /\ (m - x) mod 256 = 0 end.
Definition names_say (m : pwrite) (names : list string) (adv : option opaque) : Prop :=
  match m with
  | PW_named n a => names = n /\ adv = a
  | PW_unset => d = Reading /\ names = [] /\ adv = None
  | PW_ext => False
  end.

Inductive says : prel -> rel -> Prop :=
| S_read : forall cm x sm sch fm f gm g pm p adv km k,
    common_says false cm x -> schema_says sm sch -> clause_says (Some (sc_types sch)) fm f ->
    clause_says (Some (sc_types sch)) gm g -> mask_says pm p -> kind_says km k ->
    says (PR_read cm sm fm gm pm adv km) (RRead x (RBase sch f g p adv) k)
| S_project : forall cm x im i base ms es adv,
    common_says false cm x -> says im i -> scope base [i] -> Forall2 (expr_says base) ms es ->
    says (PR_project cm im ms adv) (RProject x i es adv)
| S_join : forall cm x lm l rm r base em e pm p jt adv,
    common_says true cm x -> says lm l -> says rm r -> scope base [l; r] -> expr_says base em e ->
    clause_says base pm p -> says (PR_join cm lm rm em pm jt adv) (RJoin x l r e p jt adv)
| S_cross : forall cm x lm l rm r adv,
    common_says true cm x -> says lm l -> says rm r -> says (PR_cross cm lm rm adv) (RCross x l r adv)
| S_fetch : forall cm x im i o n adv,
    common_says false cm x -> says im i -> says (PR_fetch cm im (PAm_const o) (PAm_const n) adv) (RFetch x i o n adv)
| S_agg : forall cm x im i base gm gs es refs mm ms adv,
    common_says true cm x -> says im i -> scope base [i] -> groups_say base gm gs es refs ->
    Forall2 (measure_says base) mm ms -> says (PR_agg cm im gm gs mm adv) (RAgg x i ms es refs adv)
| S_sort : forall cm x im i base sm ss adv,
    common_says true cm x -> says im i -> scope base [i] -> Forall2 (sort_says base) sm ss ->
    says (PR_sort cm im sm adv) (RSort x i ss adv)
| S_filter : forall cm x im i base em e adv,
    common_says false cm x -> says im i -> scope base [i] -> expr_says base em e ->
    says (PR_filter cm im em adv) (RFilter x i e adv)
| S_set : forall cm x ims is op adv,
    common_says true cm x -> Forall2 says ims is -> says (PR_set cm ims op adv) (RSet x is op adv)
| S_ext1 : forall cm x im i a df,
    common_says true cm x -> says im i -> def_says [i] a df -> says (PR_ext1 cm im a) (RExt1 x i df)
| S_ext0 : forall cm x a df,
    common_says true cm x -> def_says [] a df -> says (PR_ext0 cm a) (RExt0 x df)
| S_extN : forall cm x ims is a df,
    common_says true cm x -> Forall2 says ims is -> def_says is a df -> says (PR_extN cm ims a) (RExtN x is df)
| S_hash : forall cm x lm l rm r km lk rk ks base pm p jm jt adv,
    common_says true cm x -> says lm l -> says rm r -> keys_say km lk rk ks ->
    pm = PX_nil \/ mapped_scope base (c_map x) [l; r] -> clause_says base pm p ->
    phys_says jm jt -> says (PR_hash cm lm rm km lk rk pm jm adv) (RHash x l r ks p jt adv)
| S_merge : forall cm x lm l rm r km lk rk ks base pm p jm jt adv,
    common_says true cm x -> says lm l -> says rm r -> keys_say km lk rk ks ->
    pm = PX_nil \/ mapped_scope base (c_map x) [l; r] -> clause_says base pm p ->
    phys_says jm jt -> says (PR_merge cm lm rm km lk rk pm jm adv) (RMerge x l r ks p jt adv)
| S_write : forall cm x wm names adv sm sch op im i om mode,
    common_says false cm x -> names_say wm names adv -> schema_says sm sch -> says im i ->
    match d with Writing => om = 0 | Reading => om = mode end ->
    says (PR_write cm wm sm op im om) (RWrite x names adv sch op i mode).
End Says.
