(** Specification of the parameters a declared type reports (C72). *)

From Coq Require Import ZArith String List.
From Verif Require Import TypesModel SigModel.
Import ListNotations.

(** a name stands for an integer somewhere in the type *)
Inductive mentions (x : string) : fdt -> Prop :=
| In_single k n v : mentions x (FSingle k n v (IVar x))
| In_precision n v s : mentions x (FDecimal n v (IVar x) s)
| In_scale n v p : mentions x (FDecimal n v p (IVar x))
| In_list n v e : mentions x e -> mentions x (FList n v e)
| In_key n v k y : mentions x k -> mentions x (FMap n v k y)
| In_value n v k y : mentions x y -> mentions x (FMap n v k y)
| In_field n v fs f : In f fs -> mentions x f -> mentions x (FStruct n v fs)
| In_input n ps r f : In f ps -> mentions x f -> mentions x (FFunc n ps r)
| In_output n ps r : mentions x r -> mentions x (FFunc n ps r)
| In_user n v ps name f : In (UData f) ps -> mentions x f -> mentions x (FUser n v ps name)
| In_derived asg f : mentions x f -> mentions x (FDeriv asg f).

(** the first type among the parameters of a user-defined type *)
Inductive first_type : list udtp -> fdt -> Prop :=
| First_here f ps : first_type (UData f :: ps) f
| First_after_int z ps f : first_type ps f -> first_type (UInt z :: ps) f
| First_after_text s ps f : first_type ps f -> first_type (UStr s :: ps) f.

(** as [mentions], but of the parameters of a user-defined type only the first type counts *)
Inductive depends : fdt -> Prop :=
| On_single k n v x : depends (FSingle k n v (IVar x))
| On_precision n v x s : depends (FDecimal n v (IVar x) s)
| On_scale n v p x : depends (FDecimal n v p (IVar x))
| On_list n v e : depends e -> depends (FList n v e)
| On_key n v k y : depends k -> depends (FMap n v k y)
| On_value n v k y : depends y -> depends (FMap n v k y)
| On_field n v fs f : In f fs -> depends f -> depends (FStruct n v fs)
| On_input n ps r f : In f ps -> depends f -> depends (FFunc n ps r)
| On_output n ps r : depends r -> depends (FFunc n ps r)
| On_user n v ps name f : first_type ps f -> depends f -> depends (FUser n v ps name)
| On_derived asg f : depends f -> depends (FDeriv asg f).

(** a user-defined type in it has at most one type among its parameters *)
Inductive simple : fdt -> Prop :=
| Simple_prim p n v : simple (FPrim p n v)
| Simple_enum c n v nm o : simple (FEnum c n v nm o)
| Simple_single k n v i : simple (FSingle k n v i)
| Simple_decimal n v p s : simple (FDecimal n v p s)
| Simple_any nm v n : simple (FAny nm v n)
| Simple_list n v e : simple e -> simple (FList n v e)
| Simple_map n v k y : simple k -> simple y -> simple (FMap n v k y)
| Simple_struct n v fs : (forall f, In f fs -> simple f) -> simple (FStruct n v fs)
| Simple_func n ps r : (forall f, In f ps -> simple f) -> simple r -> simple (FFunc n ps r)
| Simple_user n v ps nm : (forall f, In (UData f) ps -> simple f) -> (forall f g, In (UData f) ps -> In (UData g) ps -> f = g) ->
    simple (FUser n v ps nm)
| Simple_derived asg f : simple f -> simple (FDeriv asg f).

(** the types of a list that depend on a name, in order *)
Inductive picks : list fdt -> list gparam -> Prop :=
| Picks_nothing : picks [] []
| Picks_it f fs l : depends f -> picks fs l -> picks (f :: fs) (GType f :: l)
| Picks_others f fs l : ~ depends f -> picks fs l -> picks (f :: fs) l.
Inductive picks_user : list udtp -> list gparam -> Prop :=
| Picks_no_parameter : picks_user [] []
| Picks_type f ps l : depends f -> picks_user ps l -> picks_user (UData f :: ps) (GUdt (UData f) :: l)
| Picks_no_type p ps l : ~ (exists f, p = UData f /\ depends f) -> picks_user ps l -> picks_user (p :: ps) l.

(** what a type reports: nothing unless it depends on a name; then its own integers, or those of its parts that depend on one *)
Inductive reports : fdt -> list gparam -> Prop :=
| Reports_nothing f : ~ depends f -> reports f []
| Reports_integer k n v x : reports (FSingle k n v (IVar x)) [GInt (IVar x)]
| Reports_decimal n v p s : depends (FDecimal n v p s) -> reports (FDecimal n v p s) [GInt p; GInt s]
| Reports_element n v e : depends e -> reports (FList n v e) [GType e]
| Reports_entry n v k y l : depends (FMap n v k y) -> picks [k; y] l -> reports (FMap n v k y) l
| Reports_fields n v fs l : depends (FStruct n v fs) -> picks fs l -> reports (FStruct n v fs) l
| Reports_signature n ps r l : depends (FFunc n ps r) -> picks (ps ++ [r]) l -> reports (FFunc n ps r) l
| Reports_user n v ps nm l : depends (FUser n v ps nm) -> picks_user ps l -> reports (FUser n v ps nm) l
| Reports_derived asg f l : depends f -> reports f l -> reports (FDeriv asg f) l.
