(** Specification of the calls test cases give (C67). *)

From Coq Require Import ZArith String Ascii Bool List.
From Verif Require Import Base FMap TypesModel ExtSetModel LoadModel FuncModel LitModel ExprModel TestCaseModel.
Import ListNotations.
Local Open Scope string_scope.
Local Open Scope Z_scope.

(** what remains of a text without a beginning, or an end, it may have *)
Definition without_prefix (p s r : string) : Prop := s = p ++ r \/ ((forall q, s <> p ++ q) /\ r = s).
Definition without_suffix (p s r : string) : Prop := s = r ++ p \/ ((forall q, s <> q ++ p) /\ r = s).

(** the URN of the functions under test; what begins with a slash is a path *)
Inductive urn_of : string -> string -> Prop :=
| Urn_plain s : (forall r, s <> "/" ++ r) -> urn_of s s
| Urn_path s base m : (exists r, s = "/" ++ r) -> without_prefix "/extensions/" s base -> without_suffix ".yaml" base m ->
    urn_of s ("extension:io.substrait:" ++ m).

(** the type of an argument *)
Inductive agg_typed : aggarg -> ty -> Prop :=
| Typed_value g c : a_scalar g = true -> a_arg g = Some c -> agg_typed g (c_type c)
| Typed_column g t : a_scalar g = false -> a_type g = Some t -> agg_typed g t.
Definition args_typed (k : tcase) (ts : list ty) : Prop :=
  (k_aggregate k = false /\ ts = map c_type (k_args k)) \/ (k_aggregate k = true /\ Forall2 agg_typed (k_aggargs k) ts).

(** the name of the function under test: with the types of its arguments *)
Definition tests (k : tcase) (ts : list ty) (id : ext_id) : Prop :=
  args_typed k ts /\ urn_of (k_uri k) (id_urn id) /\
  id_name id = k_name k ++ ":" ++ String.concat "_" (map short_string ts).

Section Calls.
Context {R : Type}.

(** the value of an argument *)
Inductive passes : caselit -> farg (expr R) -> Prop :=
| Passes_value c l : c_value c = CLit l -> passes c (AExpr (ExprModel.ELit l))
| Passes_word c s : c_value c = CEnum s -> passes c (AEnum s).

(** An argument of an aggregate function that names column [i] is passed as a reference to column [i]; as its type is taken that of
    argument number [i], which is not known if that is a constant. *)
Inductive passes_agg (gs : list aggarg) : aggarg -> farg (expr R) -> Prop :=
| Passes_constant g c a : a_scalar g = true -> a_arg g = Some c -> passes c a -> passes_agg gs g a
| Passes_column g h x : a_scalar g = false -> 0 <= a_index g -> nth_error gs (Z.to_nat (a_index g)) = Some h ->
    (forall t, a_scalar h = false -> a_type h = Some t -> x = XTy t) -> (a_scalar h = true -> x = XNil) ->
    passes_agg gs g (AExpr (ERef RRoot (RefSeg [SField (a_index g)]) x)).

(** each option with its value as the one preference *)
Definition prefers (o : string * string) (p : fopt) : Prop := p = (fst o, [snd o]).

(** [f] is the first of [fs] that belongs to the URN and takes arguments of the types *)
Definition first_of (fmatch : variant -> list (option ty) -> res bool) (urn : string) (ts : list ty) (fs : list variant) (f : variant) : Prop :=
  exists before after, fs = (before ++ f :: after)%list /\ fmatch f (map Some ts) = Ok true /\ v_urn f = urn /\
    forall g, In g before -> fmatch g (map Some ts) <> Panic /\ ~ (fmatch g (map Some ts) = Ok true /\ v_urn g = urn).
(** going through [fs] in order ends at a declaration whose matching panics, or at the first that fits and has [bad] *)
Definition stopped_by (fmatch : variant -> list (option ty) -> res bool) (urn : string) (ts : list ty) (fs : list variant) (bad : variant -> Prop) : Prop :=
  exists before f after, fs = (before ++ f :: after)%list /\
    (forall g, In g before -> fmatch g (map Some ts) <> Panic /\ ~ (fmatch g (map Some ts) = Ok true /\ v_urn g = urn)) /\
    (fmatch f (map Some ts) = Panic \/ (fmatch f (map Some ts) = Ok true /\ v_urn f = urn /\ bad f)).
End Calls.
