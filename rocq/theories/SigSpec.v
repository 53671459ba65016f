(** Specification vocabulary for function signatures (C05-C10), written without
    the functions of SigModel.v: only its data types are used. *)

From Coq Require Import List ZArith String Bool.
From Verif Require Import Base TypesModel TypesSpec SigModel.
Import ListNotations.
Local Open Scope string_scope.

(** [P] holds of the pairs of elements at the same position (up to the shorter
    length). *)
Definition AllZip {A B} (P : A -> B -> Prop) : list A -> list B -> Prop :=
  fix go (l : list A) (m : list B) : Prop :=
    match l, m with
    | x :: l', y :: m' => P x y /\ go l' m'
    | _, _ => True
    end.

(** ** C05: being an instance of a declared type *)

(** A declared integer parameter admits a value: a number admits itself, a
    variable admits every value. *)
Definition fits (i : iparam) (z : Z) : Prop :=
  match i with IConc c => z = c | IVar _ => True end.

(** [instance f t]: the concrete type [t] has the shape declared by [f],
    nullability aside.  The name of a user-defined type is not part of a concrete
    type and integers in its parameters are compared as int32. *)
Inductive instance : fdt -> ty -> Prop :=
| I_prim p n v n' v' : instance (FPrim p n v) (TPrim p n' v')
| I_enum c n v name opts n' v' : instance (FEnum c n v name opts) (TEnum false n' v' name opts)
| I_enum_common c n v name opts n' v' name' opts' :
    instance (FEnum c n v name opts) (TEnum true n' v' name' opts')
| I_fixed k n v i n' v' z : fits i z -> instance (FSingle (SFixed k) n v i) (TFixed k n' v' z)
| I_prec_time n v i n' v' z : fits i z -> instance (FSingle SPrecTime n v i) (TPrecTime n' v' z)
| I_prec_ts n v i n' v' z : fits i z -> instance (FSingle SPrecTs n v i) (TPrecTs n' v' z)
| I_prec_ts_tz n v i n' v' z : fits i z -> instance (FSingle SPrecTsTz n v i) (TPrecTsTz n' v' z)
| I_interval_day n v i n' v' z : fits i z -> instance (FSingle SIntervalDay n v i) (TIntervalDay n' v' z)
| I_decimal n v p s n' v' zp zs :
    fits p zp -> fits s zs -> instance (FDecimal n v p s) (TDecimal n' v' zp zs)
| I_any name v n t : instance (FAny name v n) t
| I_list n v e n' v' e' : instance e e' -> instance (FList n v e) (TList n' v' e')
| I_map n v k x n' v' k' x' : instance k k' -> instance x x' -> instance (FMap n v k x) (TMap n' v' k' x')
| I_struct n v fs n' v' fs' : Forall2 instance fs fs' -> instance (FStruct n v fs) (TStruct n' v' fs')
| I_func n ps r n' ps' r' :
    Forall2 instance ps ps' -> instance r r' -> instance (FFunc n ps r) (TFunc n' ps' r')
| I_user n v ps name n' v' ref qs : Forall2 instance_param ps qs -> instance (FUser n v ps name) (TUser n' v' ref qs)
| I_derived l f t : instance f t -> instance (FDeriv l f) t
with instance_param : udtp -> tparam -> Prop :=
| IP_data f t : instance f t -> instance_param (UData f) (TPdata t)
| IP_int z z' : wrap 32 z' = z -> instance_param (UInt z) (TPint z')
| IP_string s : instance_param (UStr s) (TPstring s).

(** The declared (outer) nullability of a type written in a signature. *)
Fixpoint declared_nullability (f : fdt) : nullability :=
  match f with
  | FPrim _ n _ | FEnum _ n _ _ _ | FSingle _ n _ _ | FDecimal n _ _ _ | FAny _ _ n
  | FList n _ _ | FMap n _ _ _ | FStruct n _ _ | FFunc n _ _ | FUser n _ _ _ => n
  | FDeriv _ f => declared_nullability f
  end.

(** The outer nullability of a concrete type. *)
Definition outer_nullability (t : ty) : nullability :=
  match t with
  | TPrim _ n _ | TFixed _ n _ _ | TDecimal n _ _ _ | TPrecTime n _ _ | TPrecTs n _ _
  | TPrecTsTz n _ _ | TIntervalDay n _ _ | TIntervalCompound _ n _ _
  | TIntervalYearToMonth n _ | TEnum _ n _ _ _ | TStruct n _ _ | TFunc n _ _
  | TList n _ _ | TMap n _ _ _ | TUser n _ _ _ => n
  end.

(** The nullabilities agree: at every level when [deep], and otherwise at every
    level except below a function type, two levels below a user-defined type and
    below the outer level of a derivation. *)
Fixpoint nulls (deep : bool) (f : fdt) (t : ty) : Prop :=
  declared_nullability f = outer_nullability t /\
  match f, t with
  | FList _ _ e, TList _ _ e' => nulls deep e e'
  | FMap _ _ k x, TMap _ _ k' x' => nulls deep k k' /\ nulls deep x x'
  | FStruct _ _ fs, TStruct _ _ fs' => AllZip (nulls deep) fs fs'
  | FFunc _ ps r, TFunc _ ps' r' =>
      deep = true -> AllZip (nulls deep) ps ps' /\ nulls deep r r'
  | FUser _ _ ps _, TUser _ _ _ qs =>
      AllZip (fun p q =>
                match p, q with
                | UData g, TPdata u =>
                    declared_nullability g = outer_nullability u /\ (deep = true -> nulls deep g u)
                | _, _ => True
                end) ps qs
  | FDeriv _ g, t => deep = true -> nulls deep g t
  | _, _ => True
  end.

(** No function type, no user-defined type with a composite type parameter, and
    no derivation occurs in the declared type. *)
Fixpoint checked_everywhere (f : fdt) : Prop :=
  match f with
  | FFunc _ _ _ | FDeriv _ _ => False
  | FList _ _ e => checked_everywhere e
  | FMap _ _ k x => checked_everywhere k /\ checked_everywhere x
  | FStruct _ _ fs => All checked_everywhere fs
  | FUser _ _ ps _ =>
      All (fun p => match p with
                    | UData (FPrim _ _ _ | FEnum _ _ _ _ _ | FSingle _ _ _ _ | FDecimal _ _ _ _
                            | FAny _ _ _) => True
                    | UData _ => False
                    | _ => True
                    end) ps
  | _ => True
  end.

(** ** C06: how many arguments a signature takes *)

(** The last declared parameter of a variadic signature stands for the variadic
    arguments; [v_max = 0] means no upper limit. *)
Definition count_ok (nparams : nat) (vb : option variadic) (nargs : nat) : Prop :=
  match vb with
  | None => nargs = nparams
  | Some v =>
      (Z.of_nat nparams - 1 + Z.max 0 (v_min v) <= Z.of_nat nargs)%Z /\
      (v_max v = 0 \/ Z.of_nat nargs <= Z.of_nat nparams - 1 + v_max v)%Z
  end.

(** ** C07: type variables *)

(** Equal but for the outer nullability. *)
Definition same_base (t u : ty) : Prop := same_but_nullability (forget_ptr t) (forget_ptr u).

(** [t] has the type declared by [p] when each numbered [any] variable stands for
    the type given by [sigma]; where shapes differ nothing is demanded (that is
    C05's business).  With [deep = false] function types, user-defined types and
    derivations are not looked into. *)
Fixpoint any_fits (deep : bool) (sigma : string -> ty) (p : fdt) (t : ty) : Prop :=
  match p, t with
  | FAny x _ _, t => x = "any" \/ same_base (sigma x) t
  | FList _ _ e, TList _ _ u => any_fits deep sigma e u
  | FMap _ _ k x, TMap _ _ tk tx => any_fits deep sigma k tk /\ any_fits deep sigma x tx
  | FStruct _ _ fs, TStruct _ _ ts =>
      List.length fs = List.length ts -> AllZip (any_fits deep sigma) fs ts
  | FFunc _ ps r, TFunc _ ts tr =>
      deep = true -> List.length ps = List.length ts -> AllZip (any_fits deep sigma) ps ts /\ any_fits deep sigma r tr
  | FUser _ _ ps _, TUser _ _ _ qs =>
      deep = true -> List.length ps = List.length qs ->
      AllZip (fun p q => match p, q with
                         | UData g, TPdata u => any_fits deep sigma g u
                         | _, _ => True
                         end) ps qs
  | FDeriv _ g, t => deep = true -> any_fits deep sigma g t
  | _, _ => True
  end.

(** No numbered [any] variable occurs anywhere in the type. *)
Fixpoint no_numbered_any (p : fdt) : Prop :=
  match p with
  | FAny x _ _ => x = "any"
  | FList _ _ e => no_numbered_any e
  | FMap _ _ k x => no_numbered_any k /\ no_numbered_any x
  | FStruct _ _ fs => All no_numbered_any fs
  | FFunc _ ps r => All no_numbered_any ps /\ no_numbered_any r
  | FUser _ _ ps _ => All (fun p => match p with UData g => no_numbered_any g | _ => True end) ps
  | FDeriv _ g => no_numbered_any g
  | _ => True
  end.

(** No numbered [any] variable occurs inside a function type, a user-defined type
    or a derivation. *)
Fixpoint any_in_sight (p : fdt) : Prop :=
  match p with
  | FList _ _ e => any_in_sight e
  | FMap _ _ k x => any_in_sight k /\ any_in_sight x
  | FStruct _ _ fs => All any_in_sight fs
  | FFunc _ _ _ | FUser _ _ _ _ | FDeriv _ _ => no_numbered_any p
  | _ => True
  end.

(** The declared type for each of [nargs] arguments: the last parameter of a
    variadic signature is repeated. *)
Definition declared_for {A} (params : list A) (i : nat) : option A :=
  match nth_error params i with
  | Some p => Some p
  | None => nth_error params (List.length params - 1)
  end.

(** ** C09: derivation programs *)

(** The value of an expression in ordinary integer arithmetic: only the taken
    branch of a conditional is looked at, and every number computed is an int64.
    [and]/[or] evaluate both operands; when the left one decides, the right one's
    value does not matter. *)
Definition i64 (z : Z) : Prop := (- 2 ^ 63 <= z < 2 ^ 63)%Z.

Definition arith (op : binop) (a b : Z) : option Z :=
  match op with
  | OpPlus => Some (a + b)%Z
  | OpMinus => Some (a - b)%Z
  | OpMultiply => Some (a * b)%Z
  | OpDivide => if Z.eqb b 0 then None else Some (Z.quot a b)
  | _ => None
  end.

Definition compare (op : binop) (a b : Z) : option Prop :=
  match op with
  | OpLT => Some (a < b)%Z
  | OpLTE => Some (a <= b)%Z
  | OpGT => Some (a > b)%Z
  | OpGTE => Some (a >= b)%Z
  | OpEQ => Some (a = b)
  | OpNEQ => Some (a <> b)
  | _ => None
  end.

Definition call (name : string) (a : Z) (rest : list pval) : option Z :=
  if String.eqb name "abs" then Some (Z.abs a)
  else
    match rest with
    | VInt b :: _ =>
        if String.eqb name "max" then Some (Z.max a b)
        else if String.eqb name "min" then Some (Z.min a b)
        else None
    | _ => None
    end.

Definition env := string -> option pval.

Inductive denotes (g : env) : dexpr -> pval -> Prop :=
| D_num z : denotes g (DNum z) (VInt z)
| D_name x v : g x = Some v -> denotes g (DName x) v
| D_arith op l r a b c :
    denotes g l (VInt a) -> denotes g r (VInt b) -> arith op a b = Some c -> i64 c ->
    denotes g (DBin op l r) (VInt c)
| D_compare op l r a b (P : Prop) (c : bool) :
    denotes g l (VInt a) -> denotes g r (VInt b) -> compare op a b = Some P -> (c = true <-> P) ->
    denotes g (DBin op l r) (VBool c)
| D_and l r a b : denotes g l (VBool a) -> denotes g r (VBool b) -> denotes g (DBin OpAnd l r) (VBool (a && b))
| D_or l r a b : denotes g l (VBool a) -> denotes g r (VBool b) -> denotes g (DBin OpOr l r) (VBool (a || b))
| D_and_decided l r v : denotes g l (VBool false) -> denotes g r v -> denotes g (DBin OpAnd l r) (VBool false)
| D_or_decided l r v : denotes g l (VBool true) -> denotes g r v -> denotes g (DBin OpOr l r) (VBool true)
| D_if_true b c t e v : denotes g c (VBool true) -> denotes g t v -> denotes g (DIf b c t e) v
| D_if_false b c t e v : denotes g c (VBool false) -> denotes g e v -> denotes g (DIf b c t e) v
| D_not e b : denotes g e (VBool b) -> denotes g (DNot e) (VBool (negb b))
| D_call name args a rest c :
    Forall2 (denotes g) args (VInt a :: rest) -> call name a rest = Some c -> (name = "abs" -> i64 c) ->
    denotes g (DCall name args) (VInt c).

(** Some operation that gets evaluated has a result outside int64. *)
Inductive overflows (g : env) : dexpr -> Prop :=
| O_here op l r a b c :
    denotes g l (VInt a) -> denotes g r (VInt b) -> arith op a b = Some c -> ~ i64 c ->
    overflows g (DBin op l r)
| O_abs args a rest : Forall2 (denotes g) args (VInt a :: rest) -> ~ i64 (Z.abs a) -> overflows g (DCall "abs" args)
| O_left op l r : overflows g l -> overflows g (DBin op l r)
| O_right op l r : overflows g r -> overflows g (DBin op l r)
| O_cond b c t e : overflows g c -> overflows g (DIf b c t e)
| O_then b c t e : overflows g t -> overflows g (DIf b c t e)
| O_else b c t e : overflows g e -> overflows g (DIf b c t e)
| O_not e : overflows g e -> overflows g (DNot e)
| O_arg name args e : In e args -> overflows g e -> overflows g (DCall name args).

(** The types of values of expressions. *)
Inductive dtype := TyInt | TyBool.
Definition has_dtype (v : pval) (t : dtype) : Prop :=
  match v, t with
  | VInt z, TyInt => i64 z
  | VBool _, TyBool => True
  | _, _ => False
  end.

(** Typing of expressions. *)
Inductive typed (g : string -> option dtype) : dexpr -> dtype -> Prop :=
| Ty_num z : i64 z -> typed g (DNum z) TyInt
| Ty_name x t : g x = Some t -> typed g (DName x) t
| Ty_arith op l r : In op [OpPlus; OpMinus; OpMultiply; OpDivide] ->
    typed g l TyInt -> typed g r TyInt -> typed g (DBin op l r) TyInt
| Ty_compare op l r : In op [OpLT; OpLTE; OpGT; OpGTE; OpEQ; OpNEQ] ->
    typed g l TyInt -> typed g r TyInt -> typed g (DBin op l r) TyBool
| Ty_logic op l r : In op [OpAnd; OpOr] ->
    typed g l TyBool -> typed g r TyBool -> typed g (DBin op l r) TyBool
| Ty_if tern c a b t : typed g c TyBool -> typed g a t -> typed g b t -> typed g (DIf tern c a b) t
| Ty_not e : typed g e TyBool -> typed g (DNot e) TyBool
| Ty_abs a : typed g a TyInt -> typed g (DCall "abs" [a]) TyInt
| Ty_max a b : typed g a TyInt -> typed g b TyInt -> typed g (DCall "max" [a; b]) TyInt
| Ty_min a b : typed g a TyInt -> typed g b TyInt -> typed g (DCall "min" [a; b]) TyInt.

Fixpoint no_division (e : dexpr) : Prop :=
  match e with
  | DNum _ | DName _ => True
  | DBin op l r => op <> OpDivide /\ no_division l /\ no_division r
  | DIf _ c t e => no_division c /\ no_division t /\ no_division e
  | DNot e => no_division e
  | DCall _ args => All no_division args
  end.

(** Running assignments one after the other, each seeing the earlier ones. *)
Definition update (g : env) (x : string) (v : pval) : env :=
  fun y => if String.eqb y x then Some v else g y.

Inductive runs : env -> list (string * dexpr) -> env -> Prop :=
| R_nil g : runs g [] g
| R_cons g x e v l g' : denotes g e v -> runs (update g x v) l g' -> runs g ((x, e) :: l) g'.

(** Some assignment overflows, after the earlier ones have run. *)
Inductive overflows_in : env -> list (string * dexpr) -> Prop :=
| OI_here g x e l : overflows g e -> overflows_in g ((x, e) :: l)
| OI_later g x e v l : denotes g e v -> overflows_in (update g x v) l -> overflows_in g ((x, e) :: l).

(** The variable [x] of a declared type is given the value [v] by an argument. *)
Inductive var_at : fdt -> ty -> string -> pval -> Prop :=
| VA_precision n v x s n' v' zp zs : var_at (FDecimal n v (IVar x) s) (TDecimal n' v' zp zs) x (VInt zp)
| VA_scale n v p x n' v' zp zs : var_at (FDecimal n v p (IVar x)) (TDecimal n' v' zp zs) x (VInt zs)
| VA_length k n v x n' v' z : var_at (FSingle (SFixed k) n v (IVar x)) (TFixed k n' v' z) x (VInt z)
| VA_ptime n v x n' v' z : var_at (FSingle SPrecTime n v (IVar x)) (TPrecTime n' v' z) x (VPrec z)
| VA_pts n v x n' v' z : var_at (FSingle SPrecTs n v (IVar x)) (TPrecTs n' v' z) x (VPrec z)
| VA_ptstz n v x n' v' z : var_at (FSingle SPrecTsTz n v (IVar x)) (TPrecTsTz n' v' z) x (VPrec z)
| VA_iday n v x n' v' z : var_at (FSingle SIntervalDay n v (IVar x)) (TIntervalDay n' v' z) x (VPrec z).

(** [x] is given the value [v] by some argument. *)
Definition bound (ps : list fdt) (args : list ty) (x : string) (v : pval) : Prop :=
  exists p a, In (p, a) (combine ps args) /\ var_at p a x v.

(** The declared type contains no integer variable. *)
Fixpoint no_int_var (f : fdt) : Prop :=
  match f with
  | FSingle _ _ _ i => match i with IVar _ => False | _ => True end
  | FDecimal _ _ p s =>
      match p with IVar _ => False | _ => True end /\ match s with IVar _ => False | _ => True end
  | FList _ _ e => no_int_var e
  | FMap _ _ k x => no_int_var k /\ no_int_var x
  | FStruct _ _ fs => All no_int_var fs
  | FFunc _ ps r => All no_int_var ps /\ no_int_var r
  | FUser _ _ ps _ => All (fun p => match p with UData g => no_int_var g | _ => True end) ps
  | FDeriv _ g => no_int_var g
  | _ => True
  end.

(** Integer variables occur at the top of the declared type only. *)
Definition flat (f : fdt) : Prop :=
  match f with
  | FSingle _ _ _ _ | FDecimal _ _ _ _ => True
  | f => no_int_var f
  end.

(** ** C10: occurrences of a type variable *)

(** The parts of the argument [t] standing where [p] has the variable [name],
    depth first, left to right. *)
Definition zip_concat {A B C} (f : A -> B -> list C) : list A -> list B -> list C :=
  fix go (l : list A) (m : list B) : list C :=
    match l, m with
    | x :: l', y :: m' => (f x y ++ go l' m')%list
    | _, _ => []
    end.

Fixpoint occurrences (name : string) (p : fdt) (t : ty) : list ty :=
  match p, t with
  | FAny x _ _, t => if String.eqb x name then [t] else []
  | FList _ _ e, TList _ _ u => occurrences name e u
  | FMap _ _ k x, TMap _ _ tk tx => (occurrences name k tk ++ occurrences name x tx)%list
  | FStruct _ _ fs, TStruct _ _ ts => zip_concat (occurrences name) fs ts
  | FFunc _ ps r, TFunc _ ts tr => (zip_concat (occurrences name) ps ts ++ occurrences name r tr)%list
  | FUser _ _ ps _, TUser _ _ _ qs =>
      zip_concat (fun p q => match p, q with
                             | UData g, TPdata u => occurrences name g u
                             | _, _ => []
                             end) ps qs
  | FDeriv _ g, t => occurrences name g t
  | _, _ => []
  end.

(** [name] does not occur in the declared type at all. *)
Fixpoint absent (name : string) (p : fdt) : Prop :=
  match p with
  | FAny x _ _ => x <> name
  | FList _ _ e => absent name e
  | FMap _ _ k x => absent name k /\ absent name x
  | FStruct _ _ fs => All (absent name) fs
  | FFunc _ ps r => All (absent name) ps /\ absent name r
  | FUser _ _ ps _ => All (fun p => match p with UData g => absent name g | _ => True end) ps
  | FDeriv _ g => absent name g
  | _ => True
  end.

(** [name] does not occur inside a user-defined type or a derivation. *)
Fixpoint not_in_user_type (name : string) (p : fdt) : Prop :=
  match p with
  | FList _ _ e => not_in_user_type name e
  | FMap _ _ k x => not_in_user_type name k /\ not_in_user_type name x
  | FStruct _ _ fs => All (not_in_user_type name) fs
  | FFunc _ ps r => All (not_in_user_type name) ps /\ not_in_user_type name r
  | FUser _ _ _ _ | FDeriv _ _ => absent name p
  | _ => True
  end.

(** ** What a call must satisfy *)

(** An argument type: an ordinary type, or the marker used for enum arguments. *)
Definition arg_type (t : ty) : Prop := plain t \/ t = TEnum true NullUnspecified 0 "" [].

(** The declared type accepts the argument under a nullability mode. *)
Definition accepts (nh : nullhandling) (f : fdt) (t : ty) : Prop :=
  match nh with
  | NHMirror | NHDeclared => instance f t
  | NHDiscrete => instance f t /\ nulls false f t
  | NHNone | NHOther => False
  end.

(** The declared type of a parameter in a call ([TypeArg]s cannot be called). *)
Definition param_type (p : fparam) : option fdt :=
  match p with
  | PValue f => Some f
  | PEnum _ _ => Some (FEnum true NullUnspecified 0 "" [])
  | PType _ => None
  end.

(** Arguments number [from] and up have the same base type. *)
Definition uniform_from (from : nat) (args : list ty) : Prop :=
  forall i j a b, (from <= i)%nat -> (from <= j)%nat ->
    nth_error args i = Some a -> nth_error args j = Some b -> same_base a b.

(** The positions the variadic behaviour lets through: at most [v_max], counted
    from the first argument of the call. *)
Definition positions_ok (vb : option variadic) (nargs : nat) : Prop :=
  match vb with
  | None => True
  | Some v => (v_max v = 0 \/ Z.of_nat nargs <= v_max v + 1 \/ nargs = 0%nat)%Z
  end.

(** The number from which the arguments of a CONSISTENT variadic call are
    compared with one another: the first [v_min - 1] variadic arguments are not. *)
Definition consistent_args (nparams : nat) (vb : option variadic) (args : list ty) : Prop :=
  match vb with
  | Some (Variadic mn _ Consistent) =>
      uniform_from (nparams - 1 + Z.to_nat (Z.max (mn - 1) 0)) args
  | _ => True
  end.

(** [text f x]: [x] is written as an integer parameter in an abstract part of [f]
    (also a number, when it stands beside a variable as in decimal<38,S>). *)
Inductive text : fdt -> string -> Prop :=
| T_single k n v x : text (FSingle k n v (IVar x)) x
| T_decimal n v p s i x :
    (exists y, p = IVar y \/ s = IVar y) -> i = p \/ i = s ->
    x = (match i with IVar y => y | IConc z => string_of_Z z end) -> text (FDecimal n v p s) x
| T_list n v e x : text e x -> text (FList n v e) x
| T_key n v k w x : text k x -> text (FMap n v k w) x
| T_value n v k w x : text w x -> text (FMap n v k w) x
| T_field n v fs f x : In f fs -> text f x -> text (FStruct n v fs) x
| T_param n ps r f x : In f ps -> text f x -> text (FFunc n ps r) x
| T_ret n ps r x : text r x -> text (FFunc n ps r) x
| T_deriv l f x : text f x -> text (FDeriv l f) x.

(** Two parameters mention the same integer parameter. *)
Definition shares_text (fs : list fdt) : Prop :=
  exists i j f g x, (i < j)%nat /\ nth_error fs i = Some f /\ nth_error fs j = Some g /\ text f x /\ text g x.

(** No user-defined type has a type parameter containing an integer variable. *)
Fixpoint no_user_var (f : fdt) : Prop :=
  match f with
  | FList _ _ e => no_user_var e
  | FMap _ _ k x => no_user_var k /\ no_user_var x
  | FStruct _ _ fs => All no_user_var fs
  | FFunc _ ps r => All no_user_var ps /\ no_user_var r
  | FUser _ _ ps _ => All (fun p => match p with UData g => no_int_var g | _ => True end) ps
  | FDeriv _ g => no_user_var g
  | _ => True
  end.

(** ** C09, C10: the type of a call's result *)

(** The value of an integer parameter of a result type: variables come from the
    environment and are stored as int32. *)
Inductive numeral (g : env) : iparam -> Z -> Prop :=
| N_number z : numeral g (IConc z) z
| N_variable x z : g x = Some (VInt z) -> numeral g (IVar x) (wrap 32 z).

(** For a type with one integer parameter a time precision will do as well. *)
Inductive numeral1 (g : env) : iparam -> Z -> Prop :=
| N1_numeral i z : numeral g i z -> numeral1 g i z
| N1_precision x z : g x = Some (VPrec z) -> numeral1 g (IVar x) z.

(** The type with one integer parameter of the given kind. *)
Definition single_of (k : singlek) (n : nullability) (z : Z) : ty :=
  match k with
  | SFixed fk => TFixed fk n 0 z
  | SPrecTime => TPrecTime n 0 z
  | SPrecTs => TPrecTs n 0 z
  | SPrecTsTz => TPrecTsTz n 0 z
  | SIntervalDay => TIntervalDay n 0 z
  end.

(** [result g h f t]: with the integer variables given by [g] and the type
    variables by [h], the declared result type [f] is [t].  The final type of a
    derivation program must be a type with integer parameters or none.
    ([with_nullability] is characterised by C03.) *)
Inductive result (g : env) (h : string -> option ty) : fdt -> ty -> Prop :=
| Res_prim p n v : result g h (FPrim p n v) (TPrim p n v)
| Res_enum c n v nm o : result g h (FEnum c n v nm o) (TEnum c n v nm o)
| Res_single k n v i z : numeral1 g i z -> result g h (FSingle k n v i) (single_of k n z)
| Res_decimal n v p s zp zs : numeral g p zp -> numeral g s zs -> result g h (FDecimal n v p s) (TDecimal n 0 zp zs)
| Res_any x v n t : h x = Some t -> n <> NullNullable -> result g h (FAny x v n) t
| Res_any_nullable x v t : h x = Some t -> result g h (FAny x v NullNullable) (with_nullability NullNullable t)
| Res_list n v e t : result g h e t -> result g h (FList n v e) (TList n 0 t)
| Res_map n v k x tk tx : result g h k tk -> result g h x tx -> result g h (FMap n v k x) (TMap n 0 tk tx)
| Res_struct n v fs ts : Forall2 (result g h) fs ts -> result g h (FStruct n v fs) (TStruct n 0 ts)
| Res_func n ps r ts tr : Forall2 (result g h) ps ts -> result g h r tr -> result g h (FFunc n ps r) (TFunc n ts tr)
| Res_user n v ps name qs : Forall2 (result_param g h) ps qs -> result g h (FUser n v ps name) (TUser n 0 0 qs)
| Res_derived_prim l p n v g' : runs g l g' -> result g h (FDeriv l (FPrim p n v)) (TPrim p n v)
| Res_derived_single l k n v i z g' : runs g l g' -> numeral1 g' i z ->
    result g h (FDeriv l (FSingle k n v i)) (single_of k n z)
| Res_derived_decimal l n v p s zp zs g' : runs g l g' -> numeral g' p zp -> numeral g' s zs ->
    result g h (FDeriv l (FDecimal n v p s)) (TDecimal n 0 zp zs)
with result_param (g : env) (h : string -> option ty) : udtp -> tparam -> Prop :=
| Res_data f t : result g h f t -> result_param g h (UData f) (TPdata t)
| Res_int z : result_param g h (UInt z) (TPint z)
| Res_string s : result_param g h (UStr s) (TPstring s).

(** Numbers written in the declared type are int32s (as the parser ensures). *)
Definition number32 (i : iparam) : Prop := match i with IConc z => (- 2 ^ 31 <= z < 2 ^ 31)%Z | IVar _ => True end.
Fixpoint numbers32 (f : fdt) : Prop :=
  match f with
  | FSingle _ _ _ i => number32 i
  | FDecimal _ _ p s => number32 p /\ number32 s
  | FList _ _ e => numbers32 e
  | FMap _ _ k x => numbers32 k /\ numbers32 x
  | FStruct _ _ fs => All numbers32 fs
  | FFunc _ ps r => All numbers32 ps /\ numbers32 r
  | FUser _ _ ps _ => All (fun p => match p with UData g => numbers32 g | _ => True end) ps
  | FDeriv _ g => numbers32 g
  | _ => True
  end.

(** No derivation program occurs in the type. *)
Fixpoint no_program (f : fdt) : Prop :=
  match f with
  | FDeriv _ _ => False
  | FList _ _ e => no_program e
  | FMap _ _ k x => no_program k /\ no_program x
  | FStruct _ _ fs => All no_program fs
  | FFunc _ ps r => All no_program ps /\ no_program r
  | FUser _ _ ps _ => All (fun p => match p with UData g => no_program g | _ => True end) ps
  | _ => True
  end.

(** The integer variables of a call: [g x] is the value given to [x] by the
    arguments, which do not disagree. *)
Definition variables_of (ps : list fdt) (args : list ty) (g : env) : Prop :=
  forall x v, g x = Some v <-> bound ps args x v.

(** The arguments fit the parameters and integer variables are at the top of
    parameter types.  An enum parameter takes any argument here. *)
Definition fits_params (ps : list fdt) (args : list ty) : Prop :=
  (List.length ps <= List.length args)%nat /\
  forall i p a, nth_error ps i = Some p -> nth_error args i = Some a ->
    flat p /\ (instance p a \/ exists c n v nm o, p = FEnum c n v nm o).

(** The arguments fit the parameters as far as the type variable [name] goes. *)
Definition fits_any (name : string) (ps : list fdt) (args : list ty) : Prop :=
  AllZip (fun p a => not_in_user_type name p /\
                     (instance p a \/ exists c n v nm o, p = FEnum c n v nm o)) ps args.

(** The first part of the arguments standing where the variable is declared. *)
Definition first_occurrence (ps : list fdt) (args : list ty) (name : string) : option ty :=
  hd_error (zip_concat (occurrences name) ps args).

(** ** C08 *)

(** The arguments of value parameters that take part in the MIRROR rule. *)
Definition value_args_required (params : list fparam) (args : list ty) : Prop :=
  forall i f a, declared_for params i = Some (PValue f) -> nth_error args i = Some a ->
    outer_nullability a = NullRequired.

(** The rule looks at all arguments unless the variadic behaviour is INCONSISTENT
    and there are extra arguments. *)
Definition all_looked_at (params : list fparam) (vb : option variadic) (args : list ty) : Prop :=
  match vb with
  | None => List.length args = List.length params
  | Some v => params <> [] /\ (v_consistency v = Consistent \/ (List.length args <= List.length params)%nat)
  end.

(** Every argument of an enum parameter is the enum marker. *)
Definition enum_args_ok (params : list fparam) (args : list ty) : Prop :=
  forall i nm o a, declared_for params i = Some (PEnum nm o) -> nth_error args i = Some a ->
    exists n v s l, a = TEnum true n v s l.

(** [t] is the type [u] up to outer nullability and, for a user-defined type, the
    type reference [a]. *)
Inductive referred (a : Z) : ty -> ty -> Prop :=
| Referred n n' v r ps : referred a (TUser n v r ps) (TUser n' v a ps).

(** Every argument is accepted by the declared type of its position. *)
Definition each_accepted (nh : nullhandling) (fs : list fdt) (args : list ty) : Prop :=
  forall i a, nth_error args i = Some a -> exists f, declared_for fs i = Some f /\ accepts nh f a.
