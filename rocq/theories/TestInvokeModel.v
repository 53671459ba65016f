(** Model of the calls a test case gives: /repo/testcases/parser/nodes.go 238-435.  Definitions
    only; theorems are in TestInvokeProps.v.

    A test case is of kind scalar or aggregate ([k_aggregate]); the panics for other kinds are left out.  Options
    are held in a Go map, whose iteration order is arbitrary: [order] is the order of one iteration. *)

From Coq Require Import ZArith String Ascii Bool List.
From Verif Require Import Base FMap TypesModel ExtSetModel LoadModel SigModel FuncModel LitModel ExprModel ExprOpsModel TestCaseModel.
Import ListNotations.
Local Open Scope string_scope.
Local Open Scope Z_scope.

(** [strings.TrimPrefix], [strings.TrimSuffix], [strings.HasPrefix(s, "/")] *)
Fixpoint cut_prefix (p s : string) : option string :=
  match p with
  | EmptyString => Some s
  | String c p' => match s with String d s' => if Ascii.eqb c d then cut_prefix p' s' else None | EmptyString => None end
  end.
Definition trim_prefix (p s : string) : string := match cut_prefix p s with Some r => r | None => s end.
Fixpoint cut_suffix (p s : string) : option string :=
  if String.eqb s p then Some ""
  else match s with
       | EmptyString => None
       | String c s' => match cut_suffix p s' with Some r => Some (String c r) | None => None end
       end.
Definition trim_suffix (p s : string) : string := match cut_suffix p s with Some r => r | None => s end.
Definition is_path (s : string) : bool := match s with String c _ => Ascii.eqb c "/" | EmptyString => false end.

(** 334-342: the URN of the functions under test *)
Definition case_urn (uri : string) : string :=
  if is_path uri then "extension:io.substrait:" ++ trim_suffix ".yaml" (trim_prefix "/extensions/" uri) else uri.

(** 467-472 [AggregateArgument.GetType]; [None] is the nil type, a nil [Argument] panics *)
Definition agg_type (g : aggarg) : res (option ty) :=
  if a_scalar g then match a_arg g with Some c => Ok (Some (c_type c)) | None => Panic end
  else Ok (a_type g).
(** 254-295 [GetArgTypes] *)
Definition get_arg_types (k : tcase) : res (list (option ty)) :=
  if k_aggregate k then mapM agg_type (k_aggargs k) else Ok (map (fun c => Some (c_type c)) (k_args k)).
(** 297-329 [signatureKey]; [ShortString] of a nil type panics *)
Definition short_of (t : option ty) : res string := match t with Some t => Ok (short_string t) | None => Panic end.
Definition case_signature (k : tcase) : res string :=
  let! ts := get_arg_types k in let! ss := mapM short_of ts in Ok (String.concat "_" ss).
(** 331-333, 335-347 [CompoundFunctionName], [ID] *)
Definition case_id (k : tcase) : res ext_id :=
  let! s := case_signature k in Ok (ExtId (case_urn (k_uri k)) (k_name k ++ ":" ++ s)).

(** 238-250 [GetFunctionOptions] *)
Definition case_options (order : list (string * string)) : list fopt := map (fun p => (fst p, [snd p])) order.

Section Calls.
Context {R : Type}.
Variable rel_schema : R -> res (list xtype).
(** [ResolveType] of a declaration, its [Match] and whether it is variadic, see ExprOpsModel.v and FuncModel.v *)
Variable resolve : variant -> list xtype -> eset -> res (ty * eset).
Variable fmatch : variant -> list (option ty) -> res bool.
Variable variadic_of : variant -> option variadic.

Definition value_arg (c : caselit) : farg (expr R) :=
  match c_value c with CLit l => AExpr (ExprModel.ELit l) | CEnum s => AEnum s end.

(** 364-371, 400-407: the first of the variants that fits and is of the URN; [call] makes the call of a declaration *)
Fixpoint first_fit {T} (call : ext_id -> res T) (urn : string) (ts : list (option ty)) (fs : list variant) : res T :=
  match fs with
  | [] => Err
  | f :: fs' =>
      match fmatch f ts with
      | Panic => Panic
      | Ok true => if String.eqb (v_urn f) urn then call (variant_id f) else first_fit call urn ts fs'
      | _ => first_fit call urn ts fs'
      end
  end.
Definition or_else {T} (r : res T) (k : res T) : res T := match r with Err => k | _ => r end.

(** 349-373 [GetScalarFunctionInvocation]; the options are iterated once for each call *)
Definition scalar_invocation (c : coll) (reg : registry) (k : tcase) (order order' : list (string * string)) (s : eset) : res (expr R * eset) :=
  if k_aggregate k then Err
  else
    let! id := case_id k in
    let args := map value_arg (k_args k) in
    let call ord id := new_scalar_func rel_schema short_string resolve c id (case_options ord) args s in
    or_else (call order id)
      (let! ts := get_arg_types k in
       first_fit (call order') (id_urn id) ts (scalar_functions variadic_of reg (k_name k) (Z.of_nat (List.length args)))).

(** 269-277 [getAggregateFuncTableSchema], by argument *)
Definition agg_schema (gs : list aggarg) : list xtype :=
  map (fun g => if a_scalar g then XNil else match a_type g with Some t => XTy t | None => XNil end) gs.
Definition agg_call_arg (schema : list xtype) (g : aggarg) : res (farg (expr R)) :=
  if a_scalar g then match a_arg g with Some c => Ok (value_arg c) | None => Panic end
  else let! r := new_field_ref rel_schema RRoot (RefSeg [SField (a_index g)]) (Some schema) in Ok (AExpr r).
(** 375-410 [GetAggregateFunctionInvocation]; invocation ALL is 1, phase INITIAL_TO_RESULT is 3 *)
Definition aggregate_invocation (c : coll) (reg : registry) (k : tcase) (order order' : list (string * string)) (s : eset) : res (aggf R * eset) :=
  if negb (k_aggregate k) then Err
  else
    let! id := case_id k in
    let! args := mapM (agg_call_arg (agg_schema (k_aggargs k))) (k_aggargs k) in
    let call ord id := new_aggregate_func rel_schema short_string resolve c id (case_options ord) 1 3 [] args s in
    or_else (call order id)
      (let! ts := get_arg_types k in
       first_fit (call order') (id_urn id) ts (agg_functions variadic_of reg (k_name k) (Z.of_nat (List.length args)))).
End Calls.

(** 413-435 [GetAggregateColumnsData] *)
Definition columns_data (k : tcase) : res (list (list lit)) :=
  if negb (k_aggregate k) then Err
  else match k_columns k with
       | _ :: _ => Ok (k_columns k)
       | [] =>
           mapM (fun g => match a_arg g with
                          | None => Panic
                          | Some c => match c_value c with CLit (LList vs _) => Ok vs | _ => Err end
                          end) (k_aggargs k)
       end.
