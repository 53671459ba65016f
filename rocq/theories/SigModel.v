(** Model of function-definition types and of calling a function signature:
    /repo/types/parameterized_*.go, any_type.go, type_derivation.go,
    integer_parameters/*.go and the matching and type-resolution code of
    /repo/extensions/variants.go and simple_extension.go.
    Definitions only; theorems are in SigProps.v. *)

From Coq Require Import List ZArith String Bool.
From Verif Require Import Base FMap TypesModel ExtSetModel.
Import ListNotations.
Local Open Scope string_scope.

(** integer_parameters/concrete_int_param.go 8 [ConcreteIntParam int32] and
    variable_int_param.go 8 [VariableIntParam string]. *)
Inductive iparam :=
| IConc (z : Z)
| IVar (name : string).

(** concrete_int_param.go 17-22 and variable_int_param.go 15-22 [IsCompatible]
    with a [ConcreteIntParam] argument, the only way it is called. *)
Definition iparam_compatible (i : iparam) (z : Z) : bool :=
  match i with
  | IConc c => Z.eqb z c
  | IVar _ => true
  end.

Definition is_var (i : iparam) : bool := match i with IVar _ => true | IConc _ => false end.

(** concrete_int_param.go 24, variable_int_param.go 24 [String]. *)
Definition iparam_string (i : iparam) : string :=
  match i with IConc z => string_of_Z z | IVar s => s end.

(** type_derivation.go 27-43 [BinaryOp]. *)
Inductive binop :=
| OpUnknown | OpAnd | OpOr | OpPlus | OpMinus | OpMultiply | OpDivide
| OpLT | OpLTE | OpGT | OpGTE | OpEQ | OpNEQ.

(** type_derivation.go 10-239 and types.go 1575: the implementations of [Expr].
    [DName] is a [StringParameter]; the flag of [DIf] is [IsTernary], which only
    affects printing. *)
Inductive dexpr :=
| DNum (z : Z)
| DName (s : string)
| DBin (op : binop) (l r : dexpr)
| DIf (ternary : bool) (c t e : dexpr)
| DNot (e : dexpr)
| DCall (name : string) (args : list dexpr).

(** types.go 985-991: the instances of [parameterizedTypeSingleIntegerParam[T]]. *)
Inductive singlek :=
| SFixed (k : fixedk) | SPrecTime | SPrecTs | SPrecTsTz | SIntervalDay.

(** Go values of interface [types.FuncDefArgType] (types.go 480-499): the
    argument and return types written in a function definition.
    [FEnum]'s flag says whether it is the very pointer [CommonEnumType]. *)
Inductive fdt :=
| FPrim (p : prim) (n : nullability) (v : Z)
| FEnum (is_common : bool) (n : nullability) (v : Z) (name : string) (opts : list string)
| FSingle (k : singlek) (n : nullability) (v : Z) (i : iparam)
| FDecimal (n : nullability) (v : Z) (precision scale : iparam)
| FAny (name : string) (v : Z) (n : nullability)
| FList (n : nullability) (v : Z) (elem : fdt)
| FMap (n : nullability) (v : Z) (key value : fdt)
| FStruct (n : nullability) (v : Z) (fields : list fdt)
| FFunc (n : nullability) (params : list fdt) (ret : fdt)
| FUser (n : nullability) (v : Z) (params : list udtp) (name : string)
| FDeriv (assignments : list (string * dexpr)) (final : fdt)
with udtp :=
| UData (f : fdt)
| UInt (z : Z)
| UStr (s : string).

(** [GetNullability] of each (any_type.go 45, parameterized_*.go, types.go 648,
    891, type_derivation.go 297). *)
Fixpoint fdt_nullability (f : fdt) : nullability :=
  match f with
  | FPrim _ n _ | FEnum _ n _ _ _ | FSingle _ n _ _ | FDecimal n _ _ _ | FAny _ _ n
  | FList n _ _ | FMap n _ _ _ | FStruct n _ _ | FFunc n _ _ | FUser n _ _ _ => n
  | FDeriv _ f => fdt_nullability f
  end.

(** Length check followed by an index loop, e.g. parameterized_struct_type.go
    63-71: all calls are pure, so the order of the checks is not observable. *)
Definition all2b {A B} (f : A -> B -> bool) : list A -> list B -> bool :=
  fix go (l : list A) (m : list B) : bool :=
    match l, m with
    | [], [] => true
    | x :: l', y :: m' => f x y && go l' m'
    | _, _ => false
    end.

(** parameterized_single_integer_param_type.go 68-78: the dynamic type of the
    argument must be exactly [T]; then its length or precision. *)
Definition single_value (k : singlek) (t : ty) : option Z :=
  match k, t with
  | SFixed fk, TFixed fk' _ _ len => if fixedk_eqb fk fk' then Some len else None
  | SPrecTime, TPrecTime _ _ p => Some p
  | SPrecTs, TPrecTs _ _ p => Some p
  | SPrecTsTz, TPrecTsTz _ _ p => Some p
  | SIntervalDay, TIntervalDay _ _ p => Some p
  | _, _ => None
  end.

(** [MatchWithoutNullability]: types.go 621, 949; parameterized_decimal_type.go 54;
    parameterized_single_integer_param_type.go 67; any_type.go 41;
    parameterized_list_type.go 52; _map_type.go 57; _struct_type.go 76;
    _func_type.go 80; _user_defined_type.go 175 with 49, 70, 95;
    type_derivation.go 293. *)
Fixpoint match_without (f : fdt) (t : ty) : bool :=
  match f with
  | FPrim p _ _ => match t with TPrim p' _ _ => prim_eqb p p' | _ => false end
  | FEnum _ _ _ name opts => enum_match_without_nullability name opts t
  | FSingle k _ _ i =>
      match single_value k t with Some z => iparam_compatible i z | None => false end
  | FDecimal _ _ p s =>
      match t with
      | TDecimal _ _ p' s' => iparam_compatible p p' && iparam_compatible s s'
      | _ => false
      end
  | FAny _ _ _ => true
  | FList _ _ e => match t with TList _ _ e' => match_without e e' | _ => false end
  | FMap _ _ k x =>
      match t with TMap _ _ k' x' => match_without k k' && match_without x x' | _ => false end
  | FStruct _ _ fs => match t with TStruct _ _ fs' => all2b match_without fs fs' | _ => false end
  | FFunc _ ps r =>
      match t with
      | TFunc _ ps' r' => all2b match_without ps ps' && match_without r r'
      | _ => false
      end
  | FUser _ _ ps _ => match t with TUser _ _ _ ps' => all2b udt_match_without ps ps' | _ => false end
  | FDeriv _ f => match_without f t
  end
with udt_match_without (p : udtp) (q : tparam) : bool :=
  match p with
  | UData f => match q with TPdata t => match_without f t | _ => false end
  | UInt z => match q with TPint z' => Z.eqb z (wrap 32 z') | _ => false end
  | UStr s => match q with TPstring s' => String.eqb s s' | _ => false end
  end.

(** parameterized_user_defined_type.go 40-47, 77, 102 [MatchWithNullability] of
    the parameters of a user-defined type. *)
Definition udt_match_with (p : udtp) (q : tparam) : bool :=
  match p with
  | UData f =>
      udt_match_without p q &&
      match q with TPdata t => Z.eqb (fdt_nullability f) (get_nullability t) | _ => false end
  | _ => udt_match_without p q
  end.

(** [MatchWithNullability]: types.go 614, 942; parameterized_decimal_type.go 47;
    parameterized_single_integer_param_type.go 60; any_type.go 37;
    parameterized_list_type.go 41; _map_type.go 47; _struct_type.go 58;
    _func_type.go 71; _user_defined_type.go 157; type_derivation.go 286. *)
Fixpoint match_with (f : fdt) (t : ty) : bool :=
  Z.eqb (fdt_nullability f) (get_nullability t) &&
  match f with
  | FPrim _ _ _ | FEnum _ _ _ _ _ | FSingle _ _ _ _ | FDecimal _ _ _ _ | FFunc _ _ _
  | FDeriv _ _ => match_without f t
  | FAny _ _ _ => true
  | FList _ _ e => match t with TList _ _ e' => match_with e e' | _ => false end
  | FMap _ _ k x =>
      match t with TMap _ _ k' x' => match_with k k' && match_with x x' | _ => false end
  | FStruct _ _ fs => match t with TStruct _ _ fs' => all2b match_with fs fs' | _ => false end
  | FUser _ _ ps _ => match t with TUser _ _ _ ps' => all2b udt_match_with ps ps' | _ => false end
  end.

(** * Abstract parameters *)

(** [HasParameterizedParam]: types.go 606, 923; any_type.go 27; parameterized_
    decimal_type.go 31; _single_… 48; _list_ 30; _map_ 29; _struct_ 36; _func_ 43;
    _user_defined_ 135 (the value for the first [DataTypeUDTParam]);
    type_derivation.go 278. *)
Fixpoint has_param (f : fdt) : bool :=
  match f with
  | FPrim _ _ _ | FEnum _ _ _ _ _ | FAny _ _ _ => false
  | FSingle _ _ _ i => is_var i
  | FDecimal _ _ p s => is_var p || is_var s
  | FList _ _ e => has_param e
  | FMap _ _ k x => has_param k || has_param x
  | FStruct _ _ fs => existsb has_param fs
  | FFunc _ ps r => existsb has_param ps || has_param r
  | FUser _ _ ps _ =>
      (fix first (l : list udtp) : bool :=
         match l with
         | [] => false
         | UData f :: _ => has_param f
         | _ :: l' => first l'
         end) ps
  | FDeriv _ f => has_param f
  end.

(** The elements of the [[]interface{}] returned by [GetParameterizedParams]: an
    integer parameter, a type, or a parameter of a user-defined type. *)
Inductive gparam :=
| GInt (i : iparam)
| GType (f : fdt)
| GUdt (p : udtp).

(** [GetParameterizedParams]: types.go 610, 928; any_type.go 32; parameterized_
    decimal_type.go 37; _single_… 53; _list_ 34; _map_ 33; _struct_ 45; _func_ 53;
    _user_defined_ 144; type_derivation.go 282. *)
Fixpoint get_params (f : fdt) : list gparam :=
  if has_param f then
    match f with
    | FPrim _ _ _ | FEnum _ _ _ _ _ | FAny _ _ _ => []
    | FSingle _ _ _ i => [GInt i]
    | FDecimal _ _ p s => [GInt p; GInt s]
    | FList _ _ e => [GType e]
    | FMap _ _ k x => map GType (filter has_param [k; x])
    | FStruct _ _ fs => map GType (filter has_param fs)
    | FFunc _ ps r => map GType (filter has_param (ps ++ [r])%list)
    | FUser _ _ ps _ =>
        map GUdt (filter (fun p => match p with UData f => has_param f | _ => false end) ps)
    | FDeriv _ f => get_params f
    end
  else [].

(** The values in an untyped parameter list ([[]interface{}]) or symbol table:
    an [int64], a [TimePrecision], a [bool], a [Type], a [TypeParam] (nil when
    [TPnil]), or something else. *)
Inductive pval :=
| VInt (z : Z)
| VPrec (z : Z)
| VBool (b : bool)
| VType (t : ty)
| VTParam (p : tparam)
| VOther.

(** [GetParameters] of a concrete type: types.go 593, 886, 1009, 1081, 1137, 1269,
    1358, 1420, 1616; interval_day_type.go 77; interval_compound_type.go 78;
    interval_year_month_type.go 61; precison_timestamp_types.go 146, 217, 303. *)
Definition get_parameters (t : ty) : list pval :=
  match t with
  | TPrim _ _ _ | TEnum _ _ _ _ _ | TIntervalYearToMonth _ _ => []
  | TFixed _ _ _ len => [VInt len]
  | TDecimal _ _ p s => [VInt p; VInt s]
  | TPrecTime _ _ p | TPrecTs _ _ p | TPrecTsTz _ _ p | TIntervalDay _ _ p
  | TIntervalCompound _ _ _ p => [VPrec p]
  | TStruct _ _ fs => map VType fs
  | TFunc _ ps r => (map VType ps ++ [VType r])%list
  | TList _ _ e => [VType e]
  | TMap _ _ k x => [VType k; VType x]
  | TUser _ _ _ ps => map VTParam ps
  end.

Definition is_nil (v : pval) : bool := match v with VTParam TPnil => true | _ => false end.

(** The single-value type assertion [v.(Type)], which panics on failure. *)
Definition as_type (v : pval) : res ty := match v with VType t => Ok t | _ => Panic end.

(** [v.(int64)] and [v.(bool)]. *)
Definition as_int (v : pval) : res Z := match v with VInt z => Ok z | _ => Panic end.
Definition as_bool (v : pval) : res bool := match v with VBool b => Ok b | _ => Panic end.

(** * Derivation programs (type_derivation.go) *)

Definition symtab := fmap string pval.
Definition st_get (k : string) (s : symtab) : option pval := fm_get String.eqb k s.
Definition st_set (k : string) (v : pval) (s : symtab) : symtab := fm_set String.eqb k v s.

(** type_derivation.go 114-151 [BinaryExpr.Evaluate], the operator applied to the
    two evaluated operands.  [&&] and [||] assert their right operand only when
    it is needed. *)
Definition apply_binop (op : binop) (l r : pval) : res pval :=
  let ints (k : Z -> Z -> res pval) := let! a := as_int l in let! b := as_int r in k a b in
  match op with
  | OpPlus => ints (fun a b => Ok (VInt (wrap 64 (a + b))))
  | OpMinus => ints (fun a b => Ok (VInt (wrap 64 (a - b))))
  | OpMultiply => ints (fun a b => Ok (VInt (wrap 64 (a * b))))
  | OpDivide => ints (fun a b => if Z.eqb b 0 then Panic else Ok (VInt (wrap 64 (Z.quot a b))))
  | OpLT => ints (fun a b => Ok (VBool (Z.ltb a b)))
  | OpLTE => ints (fun a b => Ok (VBool (Z.leb a b)))
  | OpGT => ints (fun a b => Ok (VBool (Z.ltb b a)))
  | OpGTE => ints (fun a b => Ok (VBool (Z.leb b a)))
  | OpEQ => ints (fun a b => Ok (VBool (Z.eqb a b)))
  | OpNEQ => ints (fun a b => Ok (VBool (negb (Z.eqb a b))))
  | OpAnd => let! a := as_bool l in if a then (let! b := as_bool r in Ok (VBool b)) else Ok (VBool false)
  | OpOr => let! a := as_bool l in if a then Ok (VBool true) else (let! b := as_bool r in Ok (VBool b))
  | OpUnknown => Panic
  end.

(** [args[i].(int64)]; indexing out of range panics. *)
Definition arg_int (args : list pval) (i : nat) : res Z :=
  match nth_error args i with Some v => as_int v | None => Panic end.

(** type_derivation.go 226-238: the body of [FunctionCallExpr.Evaluate]. *)
Definition apply_call (name : string) (args : list pval) : res pval :=
  if String.eqb name "abs" then
    let! a := arg_int args 0 in
    Ok (VInt (if Z.ltb a 0 then wrap 64 (- a) else a))
  else if String.eqb name "max" then
    let! a := arg_int args 0 in
    let! b := arg_int args 1 in
    Ok (VInt (Z.max a b))
  else if String.eqb name "min" then
    let! a := arg_int args 0 in
    let! b := arg_int args 1 in
    Ok (VInt (Z.min a b))
  else Err.

(** type_derivation.go 19, 114, 171, 190, 217 and types.go 1575: [Evaluate]. *)
Fixpoint eval (s : symtab) (e : dexpr) : res pval :=
  match e with
  | DNum z => Ok (VInt z)
  | DName x => match st_get x s with Some v => Ok v | None => Err end
  | DBin op l r =>
      let! a := eval s l in
      let! b := eval s r in
      apply_binop op a b
  | DIf _ c t e =>
      let! v := eval s c in
      let! b := as_bool v in
      if b then eval s t else eval s e
  | DNot e =>
      let! v := eval s e in
      let! b := as_bool v in
      Ok (VBool (negb b))
  | DCall name args =>
      let! vs := mapM (eval s) args in
      apply_call name vs
  end.

(** type_derivation.go 246-253 [Assignment.Evaluate] and the loop 342-347. *)
Fixpoint run_assignments (l : list (string * dexpr)) (s : symtab) : res symtab :=
  match l with
  | [] => Ok s
  | (x, e) :: l' => let! v := eval s e in run_assignments l' (st_set x v s)
  end.

(** [existingValue != paramValues[j]] (type_derivation.go 322): comparison of two
    interface values, so an [int64] never equals a [TimePrecision].  Two types or
    data-type parameters are compared as pointers; distinct objects are assumed. *)
Definition pval_same (a b : pval) : bool :=
  match a, b with
  | VInt x, VInt y | VPrec x, VPrec y => Z.eqb x y
  | VBool x, VBool y => Bool.eqb x y
  | VTParam p, VTParam q =>
      match p, q with
      | TPnil, TPnil | TPnull, TPnull => true
      | TPbool x, TPbool y => Bool.eqb x y
      | TPint x, TPint y => Z.eqb x y
      | TPenum x, TPenum y | TPstring x, TPstring y => String.eqb x y
      | _, _ => false
      end
  | _, _ => false
  end.

(** type_derivation.go 319-328: the inner loop of
    [buildTypeParametersNameValueMap]; lengths have been compared. *)
Fixpoint bind_params (names : list gparam) (vals : list pval) (s : symtab) : res symtab :=
  match names, vals with
  | g :: names', v :: vals' =>
      match g with
      | GInt (IVar x) =>
          match st_get x s with
          | Some v0 => if pval_same v0 v then bind_params names' vals' (st_set x v s) else Err
          | None => bind_params names' vals' (st_set x v s)
          end
      | _ => bind_params names' vals' s
      end
  | _, _ => Ok s
  end.

(** type_derivation.go 310-332 [buildTypeParametersNameValueMap]; indexing
    [argumentTypes[i]] past the end panics. *)
Fixpoint build_symtab (ps : list fdt) (args : list ty) (s : symtab) : res symtab :=
  match ps with
  | [] => Ok s
  | p :: ps' =>
      match get_params p with
      | [] => build_symtab ps' (tl args) s
      | names =>
          match args with
          | [] => Panic
          | a :: args' =>
              if negb (Nat.eqb (List.length names) (List.length (get_parameters a))) then Err
              else let! s' := bind_params names (get_parameters a) s in build_symtab ps' args' s'
          end
      end
  end.

(** type_derivation.go 352-365: the parameters handed to [FinalType.WithParameters]. *)
Definition param_value (s : symtab) (g : gparam) : res pval :=
  match g with
  | GInt (IVar x) => match st_get x s with Some v => Ok v | None => Err end
  | GInt (IConc z) => Ok (VInt z)
  | _ => Ok VOther
  end.

(** type_derivation.go 334-365: everything [OutputDerivation.ReturnType] does
    before the final [WithParameters]. *)
Definition derivation_params (ps : list fdt) (args : list ty) (l : list (string * dexpr))
  (gs : list gparam) : res (list pval) :=
  let! s := build_symtab ps args [] in
  let! s' := run_assignments l s in
  mapM (param_value s') gs.

(** parameterized_decimal_type.go 78, 81-97 *)
Definition decimal_with_parameters (n : nullability) (p s : iparam) (params : list pval) : res ty :=
  match params with
  | [a; b] =>
      match a, b with
      | VInt x, VInt y => Ok (TDecimal n 0 (wrap 32 x) (wrap 32 y))
      | _, _ => Err
      end
  | _ =>
      match p, s with
      | IConc x, IConc y => Ok (TDecimal n 0 x y)
      | _, _ => Err
      end
  end.

(** [GetReturnType] on a zero value: types.go 1060; precison_timestamp_types.go 150,
    221, 307; interval_day_type.go 70. *)
Definition make_single (k : singlek) (n : nullability) (len : Z) : ty :=
  match k with
  | SFixed fk => TFixed fk n 0 len
  | SPrecTime => TPrecTime n 0 len
  | SPrecTs => TPrecTs n 0 len
  | SPrecTsTz => TPrecTsTz n 0 len
  | SIntervalDay => TIntervalDay n 0 len
  end.

(** parameterized_single_integer_param_type.go 110-127; no list of parameters in
    this library holds an [int32] (case at 120). *)
Definition single_with_parameters (k : singlek) (n : nullability) (i : iparam) (params : list pval)
  : res ty :=
  match params with
  | [a] =>
      match a with
      | VInt z => Ok (make_single k n (wrap 32 z))
      | VPrec z => Ok (make_single k n z)
      | _ => Err
      end
  | _ =>
      match i with
      | IConc z => Ok (make_single k n z)
      | IVar _ => Err
      end
  end.

(** Searching a list of components for the first that answers, as in the loops
    any_type.go 90-98 and 108-116. *)
Definition first_some {A B C} (f : A -> B -> res (option C)) : list A -> list B -> res (option C) :=
  fix go (l : list A) (m : list B) : res (option C) :=
    match l, m with
    | x :: l', y :: m' =>
        let! o := f x y in
        match o with
        | Some c => Ok (Some c)
        | None => go l' m'
        end
    | _, _ => Ok None
    end.

(** any_type.go 57-120 [unwrapAnyTypeWithName]. *)
Fixpoint unwrap_any (name : string) (p : fdt) (t : ty) : res (option ty) :=
  match p with
  | FAny x _ _ => if String.eqb x name then Ok (Some t) else Ok None
  | FList _ _ e =>
      match get_parameters t with
      | [a] => if is_nil a then Err else let! u := as_type a in unwrap_any name e u
      | _ => Err
      end
  | FMap _ _ k x =>
      match get_parameters t with
      | [a; b] =>
          if is_nil a || is_nil b then Err
          else
            let! u := as_type a in
            let! o := unwrap_any name k u in
            match o with
            | Some r => Ok (Some r)
            | None => let! w := as_type b in unwrap_any name x w
            end
      | _ => Err
      end
  | FStruct _ _ fs =>
      let vals := get_parameters t in
      if negb (Nat.eqb (List.length vals) (List.length fs)) || existsb is_nil vals then Err
      else first_some (fun f a => let! u := as_type a in unwrap_any name f u) fs vals
  | FFunc _ ps r =>
      let vals := get_parameters t in
      if negb (Nat.eqb (List.length vals) (S (List.length ps))) || existsb is_nil vals then Err
      else
        let! o := first_some (fun f a => let! u := as_type a in unwrap_any name f u) ps vals in
        match o with
        | Some c => Ok (Some c)
        | None =>
            match skipn (List.length ps) vals with
            | a :: _ => let! u := as_type a in unwrap_any name r u
            | [] => Ok None
            end
        end
  | _ => Ok None
  end.

(** any_type.go 122-146 [AnyType.ReturnType]: the loop runs over the shorter of
    the two lists. *)
Definition any_return_type (name : string) (n : nullability) (ps : list fdt) (args : list ty) : res ty :=
  let! o := first_some (unwrap_any name) ps args in
  match o with
  | Some t => Ok (if Z.eqb n NullNullable then with_nullability NullNullable t else t)
  | None => Err
  end.

(** [ReturnType] (types.go 652, 956; any_type.go 122; parameterized_decimal_type.go
    71; _single_… 100; _list_ 67; _map_ 72; _struct_ 99; _func_ 107; _user_defined_
    198; type_derivation.go 334) and [WithParameters] (types.go 656, 960;
    any_type.go 148; parameterized_decimal_type.go 81; _single_… 110; _list_ 77;
    _map_ 85; _struct_ 112; _func_ 132; _user_defined_ 216; type_derivation.go 370). *)
Fixpoint return_type (f : fdt) (ps : list fdt) (args : list ty) {struct f} : res ty :=
  match f with
  | FPrim p n v => Ok (TPrim p n v)
  | FEnum c n v name opts => Ok (TEnum c n v name opts)
  | FSingle k n _ i =>
      match i with
      | IConc z => Ok (make_single k n z)
      | IVar _ =>
          let! vs := derivation_params ps args [] (get_params f) in
          single_with_parameters k n i vs
      end
  | FDecimal n _ p s =>
      match p, s with
      | IConc x, IConc y => Ok (TDecimal n 0 x y)
      | _, _ =>
          let! vs := derivation_params ps args [] (get_params f) in
          decimal_with_parameters n p s vs
      end
  | FAny name _ n => any_return_type name n ps args
  | FList n _ e => let! t := return_type e ps args in Ok (TList n 0 t)
  | FMap n _ k x =>
      let! tk := return_type k ps args in
      let! tx := return_type x ps args in
      Ok (TMap n 0 tk tx)
  | FStruct n _ fs => let! ts := mapM (fun g => return_type g ps args) fs in Ok (TStruct n 0 ts)
  | FFunc n l r =>
      let! ts := mapM (fun g => return_type g ps args) l in
      let! tr := return_type r ps args in
      Ok (TFunc n ts tr)
  | FUser n _ l _ =>
      let! qs := mapM (fun p => match p with
                                | UData g => let! t := return_type g ps args in Ok (TPdata t)
                                | UInt z => Ok (TPint z)
                                | UStr s => Ok (TPstring s)
                                end) l in
      Ok (TUser n 0 0 qs)
  | FDeriv l g =>
      let! vs := derivation_params ps args l (get_params g) in
      with_parameters g vs
  end
with with_parameters (f : fdt) (params : list pval) {struct f} : res ty :=
  match f with
  | FPrim p n v => Ok (TPrim p n v)
  | FEnum _ _ _ _ _ => Panic
  | FSingle k n _ i => single_with_parameters k n i params
  | FDecimal n _ p s => decimal_with_parameters n p s params
  | FAny _ _ _ => Err
  | FList n _ _ =>
      match params with
      | [VType t] => Ok (TList n 0 t)
      | _ => Err
      end
  | FMap n _ k x =>
      match params with
      | [a; b] =>
          match a, b with
          | VType tk, VType tx => Ok (TMap n 0 tk tx)
          | _, _ => Err
          end
      | _ =>
          if has_param k || has_param x then Err
          else
            let! tk := return_type k [] [] in
            let! tx := return_type x [] [] in
            Ok (TMap n 0 tk tx)
      end
  | FStruct n _ fs =>
      if negb (Nat.eqb (List.length params) (List.length fs)) then Err
      else
        let! ts :=
          (fix go (l : list fdt) (m : list pval) : res (list ty) :=
             match l, m with
             | g :: l', a :: m' =>
                 match a with
                 | VType t =>
                     let! u := with_parameters g (get_parameters t) in
                     let! us := go l' m' in
                     Ok (u :: us)
                 | _ => Err
                 end
             | _, _ => Ok []
             end) fs params in
        Ok (TStruct n 0 ts)
  | FFunc n l r =>
      let! ts := mapM (fun g => with_parameters g params) l in
      let! tr := with_parameters r params in
      Ok (TFunc n ts tr)
  | FUser n v l _ =>
      if negb (Nat.eqb (List.length params) (List.length l)) then Err
      else
        let! qs := mapM (fun a => match a with
                                  | VTParam TPnil => Err
                                  | VTParam q => Ok q
                                  | _ => Err
                                  end) params in
        Ok (TUser n v 0 qs)
  | FDeriv _ _ => Panic
  end.

(** * Signatures (extensions/simple_extension.go, extensions/variants.go) *)

(** simple_extension.go 61-113 [FuncParameter]: [ValueArg], [EnumArg], [TypeArg]
    with the parsed type expression.  (Names, descriptions and the constant flag
    of value arguments play no part.) *)
Inductive fparam :=
| PValue (f : fdt)
| PEnum (name : string) (opts : list string)
| PType (f : fdt).

(** simple_extension.go 80, 97, 111 [GetTypeExpression]. *)
Definition type_expression (p : fparam) : fdt :=
  match p with
  | PValue f | PType f => f
  | PEnum name opts => FEnum false NullUnspecified 0 name opts
  end.

(** types.go 555 [CommonEnumType = &EnumType{}], as a declared type. *)
Definition common_enum : fdt := FEnum true NullUnspecified 0 "" [].

(** simple_extension.go 201-206 [ParameterConsistency] (any other text behaves
    like INCONSISTENT) and 217-221 [VariadicBehavior]. *)
Inductive consistency := Consistent | Inconsistent.
Record variadic := Variadic { v_min : Z; v_max : Z; v_consistency : consistency }.

(** simple_extension.go 208-215 [NullabilityHandling]; [NHNone] is the empty
    string, [NHOther] any other text. *)
Inductive nullhandling := NHMirror | NHDeclared | NHDiscrete | NHNone | NHOther.

(** simple_extension.go 223-225 *)
Definition valid_count (v : variadic) (count : Z) : bool :=
  Z.leb (v_min v) count && (Z.leb count (v_max v) || Z.eqb (v_max v) 0).

(** simple_extension.go 227-229 *)
Definition valid_position (v : variadic) (index : Z) : bool :=
  Z.leb 0 index && (Z.leb index (v_max v) || Z.eqb (v_max v) 0).

(** variants.go 291-296, 298-303 *)
Definition min_argument_count (nparams : nat) (vb : option variadic) : Z :=
  match vb with
  | None => Z.of_nat nparams
  | Some v => Z.of_nat nparams + v_min v
  end.
Definition max_argument_count (nparams : nat) (vb : option variadic) : Z :=
  match vb with
  | None => Z.of_nat nparams
  | Some v => Z.of_nat nparams + v_max v
  end.

(** variants.go 47-77 [validateType], for a non-nil actual type; the result says
    whether the argument is non-nullable. *)
Definition validate_type (p : fparam) (actual : ty) (nh : nullhandling) : res bool :=
  match p with
  | PEnum _ _ => match actual with TEnum true _ _ _ _ => Ok true | _ => Err end
  | PValue f =>
      let nullable := negb (Z.eqb (get_nullability actual) NullRequired) in
      match nh with
      | NHDiscrete =>
          if Bool.eqb nullable (Z.eqb (fdt_nullability f) NullNullable)
          then Ok (negb nullable) else Err
      | _ => Ok (negb nullable)
      end
  | PType _ => Err
  end.

(** The loops variants.go 103-112 and 118-124: validate parameter/argument pairs
    and and-together the answers.  The first list may be longer than the second. *)
Fixpoint validate_all (nh : nullhandling) (l : list fparam) (m : list ty) : res bool :=
  match l, m with
  | p :: l', a :: m' =>
      let! b := validate_type p a nh in
      let! bs := validate_all nh l' m' in
      Ok (b && bs)
  | _, _ => Ok true
  end.

(** variants.go 256-271 [getFuncDefFromArgList] *)
Fixpoint func_defs (l : list fparam) : res (list fdt) :=
  match l with
  | [] => Ok []
  | PValue f :: l' => let! fs := func_defs l' in Ok (f :: fs)
  | PEnum _ _ :: l' => let! fs := func_defs l' in Ok (common_enum :: fs)
  | PType _ :: _ => Err
  end.

(** variants.go 247-251: each argument equals the next one up to the outer
    nullability. *)
Fixpoint adjacent_equal (l : list ty) : res bool :=
  match l with
  | a :: ((b :: _) as l') =>
      let! e := type_equals a (with_nullability (get_nullability a) b) in
      if e then adjacent_equal l' else Ok false
  | _ => Ok true
  end.

(** variants.go 239-254 [validateVariadicBehaviorForMatch] *)
Definition validate_variadic (v : variadic) (actual : list ty) : res bool :=
  if negb (valid_count v (Z.of_nat (List.length actual))) then Ok false
  else
    match v_consistency v with
    | Consistent => adjacent_equal (skipn (Z.to_nat (Z.max (v_min v - 1) 0)) actual)
    | Inconsistent => Ok true
    end.

(** variants.go 222-226: the declared type for a position; past the end it is the
    last one (indexing an empty list panics). *)
Definition declared_at (fs : list fdt) (pos : nat) : res fdt :=
  match nth_error fs pos with
  | Some f => Ok f
  | None => match rev fs with f :: _ => Ok f | [] => Panic end
  end.

(** variants.go 210-235 [matchArgumentAtCommon] *)
Definition match_argument_at (actual : ty) (pos : nat) (nh : nullhandling) (fs : list fdt)
  (vb : option variadic) : res bool :=
  let out_of_range :=
    match vb with
    | None => Nat.leb (List.length fs) pos
    | Some v => negb (valid_position v (Z.of_nat pos))
    end in
  if out_of_range then Ok false
  else
    let! f := declared_at fs pos in
    match nh with
    | NHDiscrete => Ok (match_with f actual)
    | NHMirror | NHDeclared => Ok (match_without f actual)
    | NHNone | NHOther => Err
    end.

(** variants.go 180-188: the loop over the actual arguments. *)
Fixpoint match_each (actual : list ty) (pos : nat) (nh : nullhandling) (fs : list fdt)
  (vb : option variadic) : res bool :=
  match actual with
  | [] => Ok true
  | a :: l =>
      let! b := match_argument_at a pos nh fs vb in
      if b then match_each l (S pos) nh fs vb else Ok false
  end.

(** variants.go 662-677 [getLeafParameterizedParams], for a declared type: the
    texts of all integer parameters of its abstract components.  An abstract
    parameter of a user-defined type panics (676). *)
Fixpoint leaf_params (f : fdt) : res (list string) :=
  if has_param f then
    match f with
    | FPrim _ _ _ | FEnum _ _ _ _ _ | FAny _ _ _ => Ok []
    | FSingle _ _ _ i => Ok [iparam_string i]
    | FDecimal _ _ p s => Ok [iparam_string p; iparam_string s]
    | FList _ _ e => leaf_params e
    | FMap _ _ k x =>
        let! a := leaf_params k in
        let! b := leaf_params x in
        Ok (a ++ b)%list
    | FStruct _ _ fs => let! ls := mapM leaf_params fs in Ok (List.concat ls)
    | FFunc _ ps r =>
        let! ls := mapM leaf_params ps in
        let! b := leaf_params r in
        Ok (List.concat ls ++ b)%list
    | FUser _ _ _ _ => Panic
    | FDeriv _ g => leaf_params g
    end
  else Ok [].

(** variants.go 626-656 [HasSyncParams]; [seen] is the map of leaf names met in
    earlier parameters. *)
Fixpoint has_sync_params (ps : list fdt) (seen : list string) : res bool :=
  match ps with
  | [] => Ok false
  | p :: ps' =>
      let! leaves := leaf_params p in
      if existsb (fun s => existsb (String.eqb s) seen) leaves then Ok true
      else has_sync_params ps' (leaves ++ seen)%list
  end.

(** * any1, any2, … (variants.go 680-783) *)

Definition bindings := fmap string ty.

(** [for i, fieldType := range p.Types] over equally long lists, threading the
    bindings map. *)
Definition fold2M {A B S} (f : A -> B -> S -> res S) : list A -> list B -> S -> res S :=
  fix go (l : list A) (m : list B) (s : S) : res S :=
    match l, m with
    | x :: l', y :: m' => let! s' := f x y s in go l' m' s'
    | _, _ => Ok s
    end.

(** variants.go 680-754 [validateAnyTypeBinding] *)
Fixpoint bind_any (p : fdt) (t : ty) (b : bindings) : res bindings :=
  match p with
  | FAny name _ _ =>
      if String.eqb name "any" then Ok b
      else
        match fm_get String.eqb name b with
        | Some u =>
            let! e := type_equals (with_nullability NullRequired u) (with_nullability NullRequired t) in
            if e then Ok b else Err
        | None => Ok (fm_set String.eqb name t b)
        end
  | FList _ _ e => match t with TList _ _ u => bind_any e u b | _ => Ok b end
  | FMap _ _ k x =>
      match t with
      | TMap _ _ tk tx => let! b' := bind_any k tk b in bind_any x tx b'
      | _ => Ok b
      end
  | FStruct _ _ fs =>
      match t with
      | TStruct _ _ ts =>
          if Nat.eqb (List.length ts) (List.length fs) then fold2M bind_any fs ts b else Ok b
      | _ => Ok b
      end
  | _ => Ok b
  end.

(** variants.go 760-772: for a variadic call with more arguments than parameters
    the last parameter is repeated ([funcParameters[-1]] panics). *)
Definition expand_params (fs : list fdt) (vb : option variadic) (nargs : nat) : res (list fdt) :=
  match vb with
  | Some _ =>
      if Nat.ltb (List.length fs) nargs then
        match rev fs with
        | [] => Panic
        | last :: init => Ok (rev init ++ repeat last (nargs - List.length fs + 1))%list
        end
      else Ok fs
  | None => Ok fs
  end.

(** variants.go 758-783 [ValidateConstrainedAnyTypeConsistency] *)
Definition validate_any (fs : list fdt) (args : list ty) (vb : option variadic) : res unit :=
  let! fs' := expand_params fs vb (List.length args) in
  let! _ := fold2M bind_any fs' args [] in
  Ok tt.

(** variants.go 165-197 [matchArguments] *)
Definition match_arguments (nh : nullhandling) (params : list fparam) (vb : option variadic)
  (actual : list ty) : res bool :=
  let! count_ok :=
    match vb with
    | None => Ok (Nat.eqb (List.length actual) (List.length params))
    | Some v =>
        match params with
        | [] => Panic
        | _ :: fixed =>
            if Nat.ltb (List.length actual) (List.length fixed) then Panic
            else validate_variadic v (skipn (List.length fixed) actual)
        end
    end in
  if negb count_ok then Ok false
  else
    match func_defs params with
    | Err => Ok false
    | Panic => Panic
    | Ok fs =>
        let! m := match_each actual 0 nh fs vb in
        if negb m then Ok false
        else
          let! sync := has_sync_params fs [] in
          if sync then
            match build_symtab fs actual [] with
            | Ok _ => Ok true
            | Err => Ok false
            | Panic => Panic
            end
          else
            let! _ := validate_any fs actual vb in
            Ok true
    end.

(** variants.go 199-208 [matchArgumentAt], for a possibly negative position. *)
Definition match_at (actual : ty) (pos : Z) (nh : nullhandling) (params : list fparam)
  (vb : option variadic) : res bool :=
  if Z.ltb pos 0 then Err
  else
    match func_defs params with
    | Err => Ok false
    | Panic => Panic
    | Ok fs => match_argument_at actual (Z.to_nat pos) nh fs vb
    end.

(** variants.go 87-100: the argument-count checks of [EvaluateTypeExpression]. *)
Definition check_count (nparams nargs : nat) (vb : option variadic) : res unit :=
  match vb with
  | Some v =>
      let n := (Z.of_nat nargs - (Z.of_nat nparams - 1))%Z in
      if Z.ltb n 0 then Err
      else if negb (valid_count v n) then Err
      else Ok tt
  | None => if Nat.eqb nparams nargs then Ok tt else Err
  end.

(** variants.go 102-125: [allNonNull].  With CONSISTENT variadic parameters the
    extra arguments are validated against the last parameter; otherwise they are
    not looked at. *)
Definition all_non_null (nh : nullhandling) (params : list fparam) (vb : option variadic)
  (args : list ty) : res bool :=
  let! a := validate_all nh params args in
  match vb with
  | Some v =>
      match v_consistency v with
      | Consistent =>
          if Nat.ltb (List.length params) (List.length args) then
            match rev params with
            | [] => Panic
            | last :: _ =>
                let extra := skipn (List.length params) args in
                let! b := validate_all nh (repeat last (List.length extra)) extra in
                Ok (a && b)
            end
          else Ok a
      | Inconsistent => Ok a
      end
  | None => Ok a
  end.

(** variants.go 149-153: the anchor of a user-defined result type, taken from (or
    added to) the plan's extension set. *)
Definition set_udt_reference (urn : string) (ret : fdt) (t : ty) (s : eset) : res (eset * ty) :=
  match t, ret with
  | TUser n v _ ps, FUser _ _ _ name =>
      let! (s', a) := get_type_anchor (ExtId urn name) s in
      Ok (s', TUser n v a ps)
  | _, _ => Ok (s, t)
  end.

(** variants.go 155-162 *)
Definition result_nullability (nh : nullhandling) (non_null : bool) (t : ty) : ty :=
  match nh with
  | NHMirror | NHNone => with_nullability (if non_null then NullRequired else NullNullable) t
  | _ => t
  end.

(** variants.go 85-163 [EvaluateTypeExpression] *)
Definition evaluate_type_expression (urn : string) (nh : nullhandling) (ret : fdt)
  (params : list fparam) (vb : option variadic) (args : list ty) (s : eset) : res (eset * ty) :=
  let! _ := check_count (List.length params) (List.length args) vb in
  let! non_null := all_non_null nh params vb args in
  let! m := match_arguments nh params vb args in
  if negb m then Err
  else
    let! out := return_type ret (map type_expression params) args in
    let! (s', t) := set_udt_reference urn ret out s in
    Ok (s', result_nullability nh non_null t).
