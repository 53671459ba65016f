(** Specification vocabulary for the extension set (C22-C24). *)

From Coq Require Import List ZArith String Bool.
From Verif Require Import Base FMap ExtSetModel.
Import ListNotations.
Local Open Scope Z_scope.

(** [first_uses xs]: the distinct elements of [xs] in order of first occurrence. *)
Section FirstUses.
  Context {A : Type}.
  Variable dec : forall a b : A, {a = b} + {a <> b}.
  Fixpoint first_uses (xs : list A) : list A :=
    match xs with
    | [] => []
    | x :: xs' => x :: remove dec x (first_uses xs')
    end.
End FirstUses.

Definition ext_id_dec (a b : ext_id) : {a = b} + {a <> b}.
Proof. decide equality; apply string_dec. Defined.

Definition kind_dec (a b : kind) : {a = b} + {a <> b}.
Proof. decide equality. Defined.

(** The ids requested for one kind, and all URNs mentioned, in request order. *)
Definition ids_of (k : kind) (rs : list request) : list ext_id :=
  map r_id (filter (fun r => if kind_dec (r_kind r) k then true else false) rs).

(** [numbered a x l]: [x] is entry number [a] of [l], counting from 1. *)
Definition numbered {A} (a : Z) (x : A) (l : list A) : Prop :=
  1 <= a /\ nth_error l (Z.to_nat (a - 1)) = Some x.

(** Two sets answer every query alike. *)
Definition same_answers (s s' : eset) : Prop :=
  (forall k a, decode k a s = decode k a s') /\
  (forall id, fm_get ext_id_eqb id (s_types s) = fm_get ext_id_eqb id (s_types s')) /\
  (forall id, fm_get ext_id_eqb id (s_vars s) = fm_get ext_id_eqb id (s_vars s')) /\
  (forall id, fm_get ext_id_eqb id (s_funcs s) = fm_get ext_id_eqb id (s_funcs s')) /\
  (forall a, fm_get Z.eqb a (s_urns s) = fm_get Z.eqb a (s_urns s')).

(** The table that gives ids of a kind their anchors. *)
Definition anchors (k : kind) (s : eset) : fmap ext_id Z :=
  match k with KType => s_types s | KVar => s_vars s | KFunc => s_funcs s end.

(** Reading a plan's tables: the last mention of an anchor wins. *)
Definition urn_at (us : list urn_msg) (r : Z) : option string :=
  option_map um_urn (find (fun u => um_anchor u =? r) (rev us)).

(** kind, URN reference, anchor and name of a declaration *)
Definition decl_parts (d : decl_msg) : option (kind * Z * Z * string) :=
  match d with
  | DType r a n => Some (KType, r, a, n)
  | DVar r a n => Some (KVar, r, a, n)
  | DFunc r a n => Some (KFunc, r, a, n)
  | DUnset => None
  end.

(** the (kind, anchor, id) a declaration stands for in a plan with URN table [us] *)
Definition declared (us : list urn_msg) (d : decl_msg) : option (kind * Z * ext_id) :=
  match decl_parts d with
  | Some (k, r, a, n) =>
      match urn_at us r with Some u => Some (k, a, ExtId u n) | None => None end
  | None => None
  end.

Definition usable (loaded : string -> bool) (us : list urn_msg) (d : decl_msg) : Prop :=
  match decl_parts d with
  | Some (_, r, _, _) => exists u, urn_at us r = Some u /\ loaded u = true
  | None => True
  end.

Definition is_entry_at (k : kind) (a : Z) (e : option (kind * Z * ext_id)) : bool :=
  match e with
  | Some (k', a', _) => (if kind_dec k' k then true else false) && (a' =? a)
  | None => false
  end.

Definition is_entry_for (k : kind) (id : ext_id) (e : option (kind * Z * ext_id)) : bool :=
  match e with
  | Some (k', _, id') => (if kind_dec k' k then true else false) && (if ext_id_dec id' id then true else false)
  | None => false
  end.

(** what the last declaration for an anchor (for an id) says *)
Definition last_at (us : list urn_msg) (ds : list decl_msg) (k : kind) (a : Z) : option ext_id :=
  match find (is_entry_at k a) (rev (map (declared us) ds)) with
  | Some (Some (_, _, id)) => Some id
  | _ => None
  end.
Definition last_for (us : list urn_msg) (ds : list decl_msg) (k : kind) (id : ext_id) : option Z :=
  match find (is_entry_for k id) (rev (map (declared us) ds)) with
  | Some (Some (_, a, _)) => Some a
  | _ => None
  end.

(** A list sorted by strictly increasing key. *)
Fixpoint increasing (l : list Z) : Prop :=
  match l with
  | [] => True
  | x :: l' => (forall y, In y l' -> x < y) /\ increasing l'
  end.
