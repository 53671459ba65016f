(** Model of the extension set (anchor tables) of
    /repo/extensions/extension_mgr.go 335-661. *)

From Coq Require Import List ZArith String Bool.
From Verif Require Import Base FMap.
Import ListNotations.
Local Open Scope Z_scope.

(** extension_id.go 6-22: an identifier is a URN and a name. *)
Record ext_id := ExtId { id_urn : string; id_name : string }.

Definition ext_id_eqb (a b : ext_id) : bool :=
  String.eqb (id_urn a) (id_urn b) && String.eqb (id_name a) (id_name b).

(** extension_mgr.go 365-376 [set].  Two tables per kind: anchor to id and id to
    anchor, kept separately as in the code. *)
Record eset := ESet {
  s_urns : fmap Z string;
  s_types_map : fmap Z ext_id;
  s_types : fmap ext_id Z;
  s_var_map : fmap Z ext_id;
  s_vars : fmap ext_id Z;
  s_func_map : fmap Z ext_id;
  s_funcs : fmap ext_id Z }.

(** 353-363 [NewSet] *)
Definition new_set : eset := ESet [] [] [] [] [] [] [].

(** 568-575 [FindURN]: the first binding in iteration order whose value is [urn].
    (Iteration order is the list order; it only matters if a URN occurs twice.) *)
Fixpoint find_urn (urn : string) (m : fmap Z string) : option Z :=
  match m with
  | [] => None
  | (k, v) :: m' => if String.eqb v urn then Some k else find_urn urn m'
  end.

(** 577-590 [addOrGetURN]: the new URN table and the anchor *)
Definition add_or_get_urn (urn : string) (m : fmap Z string) : res (fmap Z string * Z) :=
  match find_urn urn m with
  | Some k => Ok (m, k)
  | None =>
      let sz := uwrap 32 (uwrap 32 (fm_len m) + 1) in
      match fm_get Z.eqb sz m with
      | Some _ => Err
      | None => Ok (fm_set Z.eqb sz urn m, sz)
      end
  end.

(** 553-566 [encodeType], [encodeTypeVariation], [encodeFunc] *)
Definition encode_type (a : Z) (id : ext_id) (s : eset) : eset :=
  ESet (s_urns s) (fm_set Z.eqb a id (s_types_map s)) (fm_set ext_id_eqb id a (s_types s))
       (s_var_map s) (s_vars s) (s_func_map s) (s_funcs s).
Definition encode_var (a : Z) (id : ext_id) (s : eset) : eset :=
  ESet (s_urns s) (s_types_map s) (s_types s)
       (fm_set Z.eqb a id (s_var_map s)) (fm_set ext_id_eqb id a (s_vars s))
       (s_func_map s) (s_funcs s).
Definition encode_func (a : Z) (id : ext_id) (s : eset) : eset :=
  ESet (s_urns s) (s_types_map s) (s_types s) (s_var_map s) (s_vars s)
       (fm_set Z.eqb a id (s_func_map s)) (fm_set ext_id_eqb id a (s_funcs s)).

Definition with_urns (u : fmap Z string) (s : eset) : eset :=
  ESet u (s_types_map s) (s_types s) (s_var_map s) (s_vars s) (s_func_map s) (s_funcs s).

(** 511-522 [GetTypeAnchor]; a failing addOrGetURN panics. *)
Definition get_type_anchor (id : ext_id) (s : eset) : res (eset * Z) :=
  match fm_get ext_id_eqb id (s_types s) with
  | Some a => Ok (s, a)
  | None =>
      match add_or_get_urn (id_urn id) (s_urns s) with
      | Ok (u, _) =>
          let a := uwrap 32 (uwrap 32 (fm_len (s_types s)) + 1) in
          Ok (encode_type a id (with_urns u s), a)
      | _ => Panic
      end
  end.

(** 524-535 [GetFuncAnchor] *)
Definition get_func_anchor (id : ext_id) (s : eset) : res (eset * Z) :=
  match fm_get ext_id_eqb id (s_funcs s) with
  | Some a => Ok (s, a)
  | None =>
      match add_or_get_urn (id_urn id) (s_urns s) with
      | Ok (u, _) =>
          let a := uwrap 32 (uwrap 32 (fm_len (s_funcs s)) + 1) in
          Ok (encode_func a id (with_urns u s), a)
      | _ => Panic
      end
  end.

(** 537-551 [GetTypeVariationAnchor] *)
Definition get_var_anchor (id : ext_id) (s : eset) : res (eset * Z) :=
  match fm_get ext_id_eqb id (s_vars s) with
  | Some a => Ok (s, a)
  | None =>
      match add_or_get_urn (id_urn id) (s_urns s) with
      | Ok (u, _) =>
          let a := uwrap 32 (uwrap 32 (fm_len (s_vars s)) + 1) in
          Ok (encode_var a id (with_urns u s), a)
      | _ => Panic
      end
  end.

(** 496-509 [DecodeTypeVariation], [DecodeFunc], [DecodeType] *)
Definition decode_type (a : Z) (s : eset) : option ext_id := fm_get Z.eqb a (s_types_map s).
Definition decode_func (a : Z) (s : eset) : option ext_id := fm_get Z.eqb a (s_func_map s).
Definition decode_var (a : Z) (s : eset) : option ext_id := fm_get Z.eqb a (s_var_map s).

(** The three kinds of anchor, and a request for an anchor. *)
Inductive kind := KType | KVar | KFunc.
Record request := Req { r_kind : kind; r_id : ext_id }.

Definition get_anchor (r : request) (s : eset) : res (eset * Z) :=
  match r_kind r with
  | KType => get_type_anchor (r_id r) s
  | KVar => get_var_anchor (r_id r) s
  | KFunc => get_func_anchor (r_id r) s
  end.

Definition decode (k : kind) (a : Z) (s : eset) : option ext_id :=
  match k with
  | KType => decode_type a s
  | KVar => decode_var a s
  | KFunc => decode_func a s
  end.

(** A history of requests on one set: the final set and the anchors returned. *)
Fixpoint run (rs : list request) (s : eset) : res (eset * list Z) :=
  match rs with
  | [] => Ok (s, [])
  | r :: rs' =>
      let! (s1, a) := get_anchor r s in
      let! (s2, l) := run rs' s1 in
      Ok (s2, a :: l)
  end.

(** * Serialization *)

(** proto [SimpleExtensionURN] and [SimpleExtensionDeclaration] *)
Record urn_msg := UrnMsg { um_anchor : Z; um_urn : string }.
Inductive decl_msg :=
| DType (urn_ref anchor : Z) (name : string)
| DVar (urn_ref anchor : Z) (name : string)
| DFunc (urn_ref anchor : Z) (name : string)
| DUnset.

(** A stable insertion sort by anchor; the code uses [sort.Slice], whose result
    on distinct anchors is the same. *)
Section Sort.
  Context {A : Type}.
  Variable key : A -> Z.
  Fixpoint insert (x : A) (l : list A) : list A :=
    match l with
    | [] => [x]
    | y :: l' => if key x <=? key y then x :: l else y :: insert x l'
    end.
  Fixpoint isort (l : list A) : list A :=
    match l with
    | [] => []
    | x :: l' => insert x (isort l')
    end.
End Sort.

Definition decl_anchor (d : decl_msg) : Z :=
  match d with
  | DType _ a _ | DVar _ a _ | DFunc _ a _ => a
  | DUnset => 0
  end.

(** 379-388: [urnBackRef]; later iterations overwrite earlier ones. *)
Definition urn_back_ref (urns : fmap Z string) : fmap string Z :=
  fold_left (fun m kv => fm_set String.eqb (snd kv) (fst kv) m) urns [].

(** [urnBackRef[id.URN]]: the zero value if absent *)
Definition back (m : fmap string Z) (urn : string) : Z :=
  match fm_get String.eqb urn m with Some a => a | None => 0 end.

(** 378-447 [ToProto].  [iu], [it], [iv], [jf] are the orders in which Go iterates
    the maps [e.urns], [e.types], [e.typeVariations], [e.funcs]; [shuf] is what the
    last [sort.Slice] (441-444) makes of the function declarations when its
    comparison function looks at the wrong elements.
    - 406: types are sorted by anchor.
    - 424: the comparison reads [decls[i]] instead of [typeDecls[i]]; if there is at
      least one type and there are at least two variations it dereferences nil.
    - 442: the same mistake, but with nil-safe getters: the functions are sorted by
      anchor only if nothing precedes them. *)
Definition to_proto (iu : fmap Z string) (it iv jf : fmap ext_id Z)
    (shuf : list decl_msg -> list decl_msg) : res (list urn_msg * list decl_msg) :=
  let br := urn_back_ref iu in
  let urns := isort um_anchor (map (fun kv => UrnMsg (fst kv) (snd kv)) iu) in
  let types := isort decl_anchor
      (map (fun kv => DType (back br (id_urn (fst kv))) (snd kv) (id_name (fst kv))) it) in
  let vars0 := map (fun kv => DVar (back br (id_urn (fst kv))) (snd kv) (id_name (fst kv))) iv in
  let funcs0 := map (fun kv => DFunc (back br (id_urn (fst kv))) (snd kv) (id_name (fst kv))) jf in
  if (1 <=? Z.of_nat (List.length types)) && (2 <=? Z.of_nat (List.length vars0))
  then Panic
  else
    let vars := isort decl_anchor vars0 in
    let funcs := match types ++ vars with
                 | [] => isort decl_anchor funcs0
                 | _ => shuf funcs0
                 end in
    Ok (urns, (types ++ vars) ++ funcs)%list.

(** 597-661 [GetExtensionSet].  [loaded] is [c.URNLoaded]. *)
Section GetExtensionSet.
  Variable loaded : string -> bool.

  (** 598-601 *)
  Definition read_urns (ms : list urn_msg) : fmap Z string :=
    fold_left (fun m u => fm_set Z.eqb (um_anchor u) (um_urn u) m) ms [].

  (** 613-623 [resolveRefToURN] *)
  Definition resolve_ref (urns : fmap Z string) (r : Z) : res string :=
    match fm_get Z.eqb r urns with
    | None => Err
    | Some u => if loaded u then Ok u else Err
    end.

  (** one iteration of the loop 625-658; a declaration of no known kind is skipped *)
  Definition read_decl (d : decl_msg) (s : eset) : res eset :=
    match d with
    | DVar r a name => let! u := resolve_ref (s_urns s) r in Ok (encode_var a (ExtId u name) s)
    | DType r a name => let! u := resolve_ref (s_urns s) r in Ok (encode_type a (ExtId u name) s)
    | DFunc r a name => let! u := resolve_ref (s_urns s) r in Ok (encode_func a (ExtId u name) s)
    | DUnset => Ok s
    end.

  Fixpoint read_decls (ds : list decl_msg) (s : eset) : res eset :=
    match ds with
    | [] => Ok s
    | d :: ds' => let! s' := read_decl d s in read_decls ds' s'
    end.

  Definition get_extension_set (us : list urn_msg) (ds : list decl_msg) : res eset :=
    read_decls ds (with_urns (read_urns us) new_set).
End GetExtensionSet.
