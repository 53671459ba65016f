(** Specification for C76: function variants made on the fly, and those of a declared
    function. *)

From Coq Require Import ZArith String Bool List.
From Verif Require Import Base ExtSetModel SigModel DeclModel ExprSpec VariantModel.
Import ListNotations.
Local Open Scope string_scope.

Section Making.
  (** the type a text reads as *)
  Variable parse : string -> option fdt.

  (** the compound name [compound] says: function [name] with arguments of types [ts] *)
  Definition says (compound name : string) (ts : list fdt) : Prop :=
    exists words, name_parts compound name words /\ map parse words = map Some ts.

  (** one of the argument types of the compound name cannot be read *)
  Definition misspelt (compound : string) : Prop :=
    exists name words w, name_parts compound name words /\ In w words /\ parse w = None.

  (** the state between the steps of a decomposable function has type [r]: with
      decomposition NONE (or none given) there is none, whatever the text [inter] is *)
  Inductive state_type (decomp inter : string) : option fdt -> Prop :=
  | ST_none : decomp = "" \/ decomp = "NONE" -> state_type decomp inter None
  | ST_some f : decomp <> "" -> decomp <> "NONE" -> inter <> "" -> parse inter = Some f ->
      state_type decomp inter (Some f).

  Definition no_state_type (decomp inter : string) : Prop :=
    decomp <> "" /\ decomp <> "NONE" /\ (inter = "" \/ parse inter = None).
End Making.

(** a text that defaults to [d] when empty *)
Definition or_else (d s r : string) : Prop := (s = "" /\ r = d) \/ (s <> "" /\ r = s).

(** the 64-bit integer with the bits of [z] *)
Definition signed64 (z : Z) : Z := ((z + 2 ^ 63) mod 2 ^ 64 - 2 ^ 63)%Z.

(** what holds of every variant made on the fly: it has the name and the URN asked for, its
    arguments are unnamed values of the types spelled (each is given the function's name),
    there is no description, no nullability rule and no result type *)
Definition bare (v : fvariant) (urn name : string) (ts : list fdt) : Prop :=
  fv_name v = name /\ fv_urn v = urn /\ fv_about v = 0%Z /\
  im_args (fv_impl v) = map (fun t => (name, PValue t)) ts /\
  im_null (fv_impl v) = NHNone /\ im_return (fv_impl v) = None /\ im_rest (fv_impl v) = 0%Z.

(** the properties given by the caller *)
Definition has_props (v : fvariant) (vb : option variadic) (session det : bool) : Prop :=
  im_variadic (fv_impl v) = vb /\ im_session (fv_impl v) = session /\ im_det (fv_impl v) = det.

(** the properties of aggregate functions *)
Definition has_agg_props (v : fvariant) (ordered : bool) (max : Z) (decomp : string) (inter : option fdt) : Prop :=
  im_ordered (fv_impl v) = ordered /\ im_max (fv_impl v) = max /\ im_decomp (fv_impl v) = decomp /\
  im_inter (fv_impl v) = inter.

(** the variants made on the fly *)
Inductive on_the_fly (parse : string -> option fdt) : fvariant -> Prop :=
| Fly_scalar id v : new_scalar parse id = Ok v -> on_the_fly parse v
| Fly_scalar_with id vb s d v : new_scalar_with parse id vb s d = Ok v -> on_the_fly parse v
| Fly_agg id v : new_agg parse id = Ok v -> on_the_fly parse v
| Fly_agg_opts id o v : new_agg_opts parse id o = Ok v -> on_the_fly parse v
| Fly_window id v : new_window parse id = Ok v -> on_the_fly parse v
| Fly_window_opts id o v : new_window_opts parse id o = Ok v -> on_the_fly parse v.

(** variant [v] presents implementation [i] of function [f]: everything is as declared but
    the decomposition, which is [decomp], and the window type, which is [window] *)
Definition presents (urn : string) (f : fdecl) (i : fimpl) (decomp window : string) (v : fvariant) : Prop :=
  fv_name v = fd_name f /\ fv_urn v = urn /\ fv_about v = fd_about f /\
  im_args (fv_impl v) = im_args i /\ im_variadic (fv_impl v) = im_variadic i /\
  im_session (fv_impl v) = im_session i /\ im_det (fv_impl v) = im_det i /\
  im_null (fv_impl v) = im_null i /\ im_return (fv_impl v) = im_return i /\
  im_inter (fv_impl v) = im_inter i /\ im_ordered (fv_impl v) = im_ordered i /\
  im_max (fv_impl v) = im_max i /\ im_rest (fv_impl v) = im_rest i /\
  im_decomp (fv_impl v) = decomp /\ im_window (fv_impl v) = window.
