(** Operations on expressions: equality, [Visit], the checking constructors and the
    builders of /repo/expr/builder.go.  Definitions only. *)

From Coq Require Import List ZArith String Ascii Bool.
From Verif Require Import Base FMap TypesModel ExtSetModel LoadModel LitModel ExprModel.
Import ListNotations.
Local Open Scope Z_scope.

(** ** equality *)

(** [for i := range s.args { if !FuncArgsEqual(s.args[i], other.args[i]) ... }]
    (functions.go 426-430): indexing past the end of the other list panics, its excess
    elements are not looked at. *)
Definition args_loop {A B} (f : A -> B -> res bool) : list A -> list B -> res bool := all2M f.

Section Equality.
Context {R : Type}.
(** Comparisons of interface values holding pointers: [a == b] in [FuncArgsEqual]
    (functions.go 18), [ref == rhs] for masks (field_reference.go 745), [isRelEqual]
    (plan/subquery.go 492-494). *)
Variable same_arg : farg (expr R) -> farg (expr R) -> bool.
Variable same_mask : mask -> mask -> bool.
Variable same_rel : R -> R -> bool.

(** functions.go 17-47 [FuncArgsEqual] *)
Definition farg_equals (eq : expr R -> expr R -> res bool) (a b : farg (expr R)) : res bool :=
  if same_arg a b then Ok true
  else match a with
       | AExpr (ELit LNil) => match b with AExpr (ELit LNil) => Ok true | _ => Ok false end
       | AExpr x => match b with
                    | AExpr (ELit LNil) => Ok false
                    | AExpr y => eq x y
                    | _ => Ok false
                    end
       | AType t => match b with AType u => type_equals t u | _ => Ok false end
       | AEnum x => match b with AEnum y => Ok (String.eqb x y) | _ => Ok false end
       end.

(** field_reference.go 731-746 *)
Definition reference_equals (a b : reference) : res bool :=
  match a with
  | RefSeg [] => Ok false
  | RefSeg l => match b with
                | RefSeg [] => Ok false
                | RefSeg m => seg_equals l m
                | RefMask _ => Ok false
                end
  | RefMask m => match b with RefMask m' => Ok (same_mask m m') | RefSeg _ => Ok false end
  end.

(** field_reference.go 698-729 *)
Definition root_equals (eq : expr R -> expr R -> res bool) (a b : root (expr R)) : res bool :=
  match a with
  | ROuter n => match b with ROuter m => Ok (m =? n) | _ => Ok false end
  | RLambda n => match b with RLambda m => Ok (m =? n) | _ => Ok false end
  | RExpr x => match b with RExpr y => eq x y | _ => Ok false end
  | RRoot => match b with RRoot => Ok true | _ => Ok false end
  end.

Definition pair_equals {A B} (f : A -> A -> res bool) (g : B -> B -> res bool) (p q : A * B) : res bool :=
  match p, q with (a, b), (a', b') => andM (f a a') (g b b') end.

Definition opt_bound_eqb (a b : option bound) : bool :=
  match a, b with
  | None, None => true
  | Some x, Some y => bound_eqb x y
  | _, _ => false
  end.

(** The [Equals] methods: field_reference.go 696-750; functions.go 413-435, 641-671;
    expression.go 570-587, 658-666, 712-720, 907-929, 1046-1057, 1176-1187, 1334-1348,
    1457-1466, 1575-1586; lambda.go 45-51; plan/subquery.go 126-132, 214-231, 323-330,
    449-466.  A nil receiver panics; a nil relation is not modelled. *)
Fixpoint expr_equals (a b : expr R) {struct a} : res bool :=
  match a with
  | ELit l =>
      match l with
      | LNil => Panic
      | _ => match b with ELit m => lit_equals l m | _ => Ok false end
      end
  | ERef r f _ =>
      match b with
      | ERef r' f' _ => andM (root_equals expr_equals r r') (reference_equals f f')
      | _ => Ok false
      end
  | EScalar n _ args opts out =>
      match b with
      | EScalar n' _ args' opts' out' =>
          if negb (n =? n') then Ok false
          else andM (type_equals out out')
                 (andM (args_loop (farg_equals expr_equals) args args') (Ok (list_eqb fopt_eqb opts opts')))
      | _ => Ok false
      end
  | EWindow n _ args opts out phase inv parts sorts _ lo hi =>
      match b with
      | EWindow n' _ args' opts' out' phase' inv' parts' sorts' _ lo' hi' =>
          if negb (n =? n') then Ok false
          else andM (type_equals out out')
            (if negb (phase =? phase') || negb (inv =? inv') then Ok false
             else if negb (opt_bound_eqb lo lo') || negb (opt_bound_eqb hi hi') then Ok false
             else if negb (list_eqb fopt_eqb opts opts') then Ok false
             else andM (equal_func expr_equals parts parts')
                    (andM (equal_func (pair_equals expr_equals (fun k k' => Ok (sortkind_eqb k k'))) sorts sorts')
                       (equal_func (farg_equals expr_equals) args args')))
      | _ => Ok false
      end
  | EIf ifs els =>
      match b with
      | EIf ifs' els' =>
          andM (if is_nil_expr els then Ok true
                else andM (expr_equals els els') (Ok (negb (is_nil_expr els'))))
            (equal_func (pair_equals expr_equals expr_equals) ifs ifs')
      | _ => Ok false
      end
  | ESwitch m ifs els =>
      match b with
      | ESwitch m' ifs' els' =>
          andM (expr_equals m m')
            (andM (if is_nil_expr els then Ok (is_nil_expr els') else expr_equals els els')
               (equal_func (pair_equals lit_equals expr_equals) ifs ifs'))
      | _ => Ok false
      end
  | EOr v opts =>
      match b with
      | EOr v' opts' => andM (expr_equals v v') (equal_func expr_equals opts opts')
      | _ => Ok false
      end
  | EMultiOr v opts =>
      match b with
      | EMultiOr v' opts' =>
          andM (equal_func expr_equals v v') (equal_func (equal_func expr_equals) opts opts')
      | _ => Ok false
      end
  | ECast t e fb =>
      match b with
      | ECast t' e' fb' => andM (type_equals t t') (andM (expr_equals e e') (Ok (fb =? fb')))
      | _ => Ok false
      end
  | EMap nu v kvs =>
      match b with
      | EMap nu' v' kvs' =>
          if negb (Bool.eqb nu nu') || negb (v =? v') then Ok false
          else equal_func (pair_equals expr_equals expr_equals) kvs kvs'
      | _ => Ok false
      end
  | EStruct nu v fs =>
      match b with
      | EStruct nu' v' fs' =>
          if negb (Bool.eqb nu nu') || negb (v =? v') then Ok false
          else equal_func expr_equals fs fs'
      | _ => Ok false
      end
  | EList nu v fs =>
      match b with
      | EList nu' v' fs' =>
          if negb (Bool.eqb nu nu') || negb (v =? v') then Ok false
          else equal_func expr_equals fs fs'
      | _ => Ok false
      end
  | EParam t n =>
      match b with
      | EParam t' n' => if negb (n =? n') then Ok false else type_equals t t'
      | _ => Ok false
      end
  | ELambda n v ps body =>
      match b with
      | ELambda n' v' ps' body' =>
          andM (type_equals (TStruct n v ps) (TStruct n' v' ps')) (expr_equals body body')
      | _ => Ok false
      end
  | ESubScalar r => match b with ESubScalar r' => Ok (same_rel r r') | _ => Ok false end
  | ESubIn ns r =>
      match b with
      | ESubIn ns' r' => andM (equal_func expr_equals ns ns') (Ok (same_rel r r'))
      | _ => Ok false
      end
  | ESubSet op r =>
      match b with
      | ESubSet op' r' => Ok ((op =? op') && same_rel r r')
      | _ => Ok false
      end
  | ESubCmp red cmp l r =>
      match b with
      | ESubCmp red' cmp' l' r' =>
          if is_nil_expr l || is_nil_expr l' then Ok (is_nil_expr l && is_nil_expr l')
          else if negb (red =? red') || negb (cmp =? cmp') then Ok false
          else andM (expr_equals l l') (Ok (same_rel r r'))
      | _ => Ok false
      end
  end.
End Equality.

(** ** Visit *)

Section Visit.
Context {R A : Type}.
(** A [VisitFunc] with its effects as state: what it answers for an expression, [None]
    standing for the very expression it was given. *)
Variable visit : A -> expr R -> option (expr R) * A.

Definition nil_expr : expr R := ELit LNil.

(** [after := visit(x)] and [after != x] (nil interfaces are equal) *)
Definition outcome (x : expr R) (r : option (expr R)) : expr R * bool :=
  match r with
  | None => (x, false)
  | Some y => (y, negb (is_nil_expr x && is_nil_expr y))
  end.
Definition call (st : A) (x : expr R) : expr R * bool * A :=
  match visit st x with (r, st') => (outcome x r, st') end.

Fixpoint set_nth {B} (i : nat) (y : B) (l : list B) : list B :=
  match l, i with
  | [], _ => []
  | _ :: l', O => y :: l'
  | x :: l', S j => x :: set_nth j y l'
  end.

(** [out = make([]T, len(l)); copy(out, l[:i])], zero values beyond *)
Definition fresh_prefix {B} (zero : B) (i : nat) (l : list B) : list B :=
  (firstn i l ++ repeat zero (List.length l - i))%list.

(** The copy-on-write loop: expression.go 1068-1078, 1470-1484, 1590-1605;
    plan/subquery.go 235-247.  [out] is the new slice once something has changed. *)
Fixpoint visit_loop (all : list (expr R)) (i : nat) (rest : list (expr R))
  (out : option (list (expr R))) (st : A) : option (list (expr R)) * A :=
  match rest with
  | [] => (out, st)
  | x :: rest' =>
      let '(after, changed, st') := call st x in
      let out1 := match out with
                  | None => if changed then Some (fresh_prefix nil_expr i all) else None
                  | Some o => Some o
                  end in
      visit_loop all (S i) rest' (option_map (set_nth i after) out1) st'
  end.
Definition visit_slice (l : list (expr R)) (st : A) : option (list (expr R)) * A :=
  visit_loop l 0 l None st.

(** functions.go 437-458, 738-759: arguments that are not expressions (or are nil) are kept
    without a call. *)
Fixpoint visit_args (all : list (farg (expr R))) (i : nat) (rest : list (farg (expr R)))
  (out : option (list (farg (expr R)))) (st : A) : option (list (farg (expr R))) * A :=
  match rest with
  | [] => (out, st)
  | a :: rest' =>
      let '(after, changed, st') :=
        match a with
        | AExpr x => if is_nil_expr x then (a, false, st)
                     else let '(y, ch, st') := call st x in (AExpr y, ch, st')
        | _ => (a, false, st)
        end in
      let out1 := match out with
                  | None => if changed then Some (fresh_prefix (AExpr nil_expr) i all) else None
                  | Some o => Some o
                  end in
      visit_args all (S i) rest' (option_map (set_nth i after) out1) st'
  end.

(** expression.go 592-604 (a clone of all pairs) and 1352-1372 (a copy of the prefix) *)
Fixpoint visit_pairs (init : nat -> list (expr R * expr R)) (i : nat) (rest : list (expr R * expr R))
  (out : option (list (expr R * expr R))) (st : A) : option (list (expr R * expr R)) * A :=
  match rest with
  | [] => (out, st)
  | (x, y) :: rest' =>
      let '(x', cx, st1) := call st x in
      let '(y', cy, st2) := call st1 y in
      let out1 := match out with
                  | None => if cx || cy then Some (init i) else None
                  | Some o => Some o
                  end in
      visit_pairs init (S i) rest' (option_map (set_nth i (x', y')) out1) st2
  end.

(** expression.go 944-964: [afterIf.(Literal)] panics on anything but a literal, once there
    is something to write to *)
Fixpoint visit_cases (all : list (lit * expr R)) (i : nat) (rest : list (lit * expr R))
  (out : option (list (lit * expr R))) (st : A) : res (option (list (lit * expr R)) * A) :=
  match rest with
  | [] => Ok (out, st)
  | (k, x) :: rest' =>
      let '(k', ck, st1) := call st (ELit k) in
      let '(x', cx, st2) := call st1 x in
      let out1 := match out with
                  | None => if ck || cx then Some (fresh_prefix (LNil, nil_expr) i all) else None
                  | Some o => Some o
                  end in
      match out1 with
      | None => visit_cases all (S i) rest' None st2
      | Some o =>
          match k' with
          | ELit LNil => Panic
          | ELit l => visit_cases all (S i) rest' (Some (set_nth i (l, x') o)) st2
          | _ => Panic
          end
      end
  end.

(** expression.go 1189-1240.  [out.Options[i][j] = after]: writing to a row that has not
    been allocated is an index out of range.  [row] writes one row. *)
Definition set_cell (i j : nat) (y : expr R) (o : list (list (expr R))) : res (list (list (expr R))) :=
  match nth_error o i with
  | None => Panic
  | Some r => if Nat.ltb j (List.length r) then Ok (set_nth i (set_nth j y r) o) else Panic
  end.
Fixpoint copy_cells (i : nat) (src : list (expr R)) (k : nat) (o : list (list (expr R)))
  : res (list (list (expr R))) :=
  match src with
  | [] => Ok o
  | x :: src' => let! o' := set_cell i k x o in copy_cells i src' (S k) o'
  end.
Definition mo_out := (list (expr R) * list (list (expr R)))%type.
Fixpoint visit_row (v : list (expr R)) (all : list (list (expr R))) (i : nat) (row : list (expr R))
  (j : nat) (rest : list (expr R)) (out : option mo_out) (st : A) : res (option mo_out * A) :=
  match rest with
  | [] => Ok (out, st)
  | x :: rest' =>
      let '(after, changed, st') := call st x in
      let! out1 :=
        match out with
        | None =>
            if changed then
              let! o := copy_cells i (firstn j row) 0 (firstn i all ++ repeat [] (List.length all - i))%list in
              Ok (Some (v, o))
            else Ok None
        | Some o => Ok (Some o)
        end in
      match out1 with
      | None => visit_row v all i row (S j) rest' None st'
      | Some (v', o) =>
          let! o' := set_cell i j after o in
          visit_row v all i row (S j) rest' (Some (v', o')) st'
      end
  end.
Fixpoint visit_rows (v : list (expr R)) (all : list (list (expr R))) (i : nat)
  (rest : list (list (expr R))) (out : option mo_out) (st : A) : res (option mo_out * A) :=
  match rest with
  | [] => Ok (out, st)
  | row :: rest' =>
      let out1 := match out with
                  | Some (v', o) =>
                      Some (v', match nth_error o i with
                                | Some [] => set_nth i (repeat nil_expr (List.length row)) o
                                | _ => o
                                end)
                  | None => None
                  end in
      let! (out2, st') := visit_row v all i row 0 row out1 st in
      visit_rows v all (S i) rest' out2 st'
  end.

(** The [Visit] methods: field_reference.go 756; functions.go 437-467, 738-768;
    expression.go 589-617, 668-676, 722, 931-980, 1059-1085, 1189-1240, 1350-1379, 1468-1491,
    1588-1612; lambda.go 80-86; plan/subquery.go 134, 233-253, 332, 468-480; literals.go (the
    receiver).  [None] is the receiver itself. *)
Definition expr_visit (e : expr R) (st : A) : res (option (expr R) * A) :=
  match e with
  | ELit LNil => Panic
  | ELit _ | ERef _ _ _ | EParam _ _ | ESubScalar _ | ESubSet _ _ => Ok (None, st)
  | EScalar n d args opts out =>
      let '(o, st') := visit_args args 0 args None st in
      Ok (option_map (fun args' => EScalar n d args' opts out) o, st')
  | EWindow n d args opts out phase inv parts sorts bt lo hi =>
      let '(o, st') := visit_args args 0 args None st in
      Ok (option_map (fun args' => EWindow n d args' opts out phase inv parts sorts bt lo hi) o, st')
  | EIf ifs els =>
      let '(o, st1) := visit_pairs (fun _ => ifs) 0 ifs None st in
      let '(els', ch, st2) := call st1 els in
      Ok (match o with
          | None => if ch then Some (EIf ifs els') else None
          | Some ifs' => Some (EIf ifs' els')
          end, st2)
  | ESwitch m ifs els =>
      let '(m', cm, st1) := call st m in
      let init := if cm then Some (repeat (LNil, nil_expr) (List.length ifs)) else None in
      let! (o, st2) := visit_cases ifs 0 ifs init st1 in
      let '(els', ch, st3) := call st2 els in
      Ok (match o with
          | None => if ch then Some (ESwitch m ifs els') else None
          | Some ifs' => Some (ESwitch (if cm then m' else m) ifs' els')
          end, st3)
  | EOr v opts =>
      let '(v', cv, st1) := call st v in
      let init := if cv then Some (repeat nil_expr (List.length opts)) else None in
      let '(o, st2) := visit_loop opts 0 opts init st1 in
      Ok (option_map (fun opts' => EOr (if cv then v' else v) opts') o, st2)
  | EMultiOr v opts =>
      let '(o, st1) := visit_slice v st in
      let! (o2, st2) := visit_rows v opts 0 opts
                          (option_map (fun v' => (v', repeat [] (List.length opts))) o) st1 in
      Ok (option_map (fun p => EMultiOr (fst p) (snd p)) o2, st2)
  | ECast t x fb =>
      let '(x', ch, st1) := call st x in
      Ok (if ch then Some (ECast t x' fb) else None, st1)
  | EMap nu v kvs =>
      let '(o, st1) := visit_pairs (fun i => fresh_prefix (nil_expr, nil_expr) i kvs) 0 kvs None st in
      Ok (option_map (EMap nu v) o, st1)
  | EStruct nu v fs =>
      let '(o, st1) := visit_slice fs st in Ok (option_map (EStruct nu v) o, st1)
  | EList nu v vs =>
      let '(o, st1) := visit_slice vs st in Ok (option_map (EList nu v) o, st1)
  | ELambda n v ps body =>
      let '(b', ch, st1) := call st body in
      Ok (if ch then Some (ELambda n v ps b') else None, st1)
  | ESubIn ns r =>
      let '(o, st1) := visit_slice ns st in Ok (option_map (fun ns' => ESubIn ns' r) o, st1)
  | ESubCmp red cmp l r =>
      let '(l', ch, st1) := call st l in
      Ok (if ch then Some (ESubCmp red cmp l' r) else None, st1)
  end.
End Visit.

(** ** constructors *)

(** [Equals] between two answers of [GetType], one of which may be nil or have nil
    components: a nil receiver panics; a complete type never equals an incomplete one. *)
Fixpoint x_equals (a b : xtype) {struct a} : res bool :=
  match a with
  | XNil => Panic
  | XTy t => match b with XTy u => type_equals t u | _ => Ok false end
  | XStruct n v l =>
      match expose b with
      | XStruct m w k =>
          if negb (n =? m) then Ok false
          else if negb (v =? w) then Ok false
          else if negb (Nat.eqb (List.length l) (List.length k)) then Ok false
          else all2M x_equals l k
      | _ => Ok false
      end
  | XList n v e =>
      match expose b with
      | XList m w k =>
          if negb (n =? m) then Ok false else if negb (v =? w) then Ok false else x_equals e k
      | _ => Ok false
      end
  | XMap n v k x =>
      match expose b with
      | XMap m w k' x' =>
          if negb (n =? m) then Ok false else if negb (v =? w) then Ok false
          else andM (x_equals k k') (x_equals x x')
      | _ => Ok false
      end
  | XFunc n ps r =>
      let cmp := fun m qs r' =>
          if negb (n =? m) then Ok false
          else if negb (Nat.eqb (List.length ps) (List.length qs)) then Ok false
          else andM (x_equals r r') (all2M type_equals ps qs) in
      match b with
      | XFunc m qs r' => cmp m qs r'
      | XTy (TFunc m qs r') => cmp m qs (XTy r')
      | _ => Ok false
      end
  end.

Section Constructors.
Context {R : Type}.
Variable rel_schema : R -> res (list xtype).
Notation typ := (expr_type rel_schema).

(** expression.go 462-493 [NewIfThen] *)
Definition new_if_then (first : expr R * expr R) (els : expr R) (more : list (expr R * expr R))
  : res (expr R) :=
  if is_nil_expr els then Err
  else
    let! out := typ els in
    let '(i, t) := first in
    if is_nil_expr i then Err
    else if is_nil_expr t then Err
    else
      let! ty1 := typ t in
      let! b := x_equals out ty1 in
      if negb b then Err
      else
        let! _ := (fix go (l : list (expr R * expr R)) : res unit :=
                     match l with
                     | [] => Ok tt
                     | (i, t) :: l' =>
                         if is_nil_expr i then Err
                         else if is_nil_expr t then Err
                         else
                           let! ty1 := typ t in
                           let! b := x_equals out ty1 in
                           if negb b then Err else go l'
                     end) more in
        Ok (EIf (first :: more) els).

(** expression.go 744-789 [NewSwitch] *)
Definition new_switch (m els : expr R) (cases : list (lit * expr R)) : res (expr R) :=
  if is_nil_expr m then Err
  else
    let! mt := typ m in
    let! mt := x_with_nullability NullUnspecified mt in
    match cases with
    | [] => Err
    | (_, t0) :: _ =>
        let! out :=
          if negb (is_nil_expr els) then let! t := typ els in x_with_nullability NullUnspecified t
          else if negb (is_nil_expr t0) then let! t := typ t0 in x_with_nullability NullUnspecified t
          else Ok XNil in
        let! _ := (fix go (l : list (lit * expr R)) : res unit :=
                     match l with
                     | [] => Ok tt
                     | (k, t) :: l' =>
                         match k with
                         | LNil => Err
                         | _ =>
                             if is_nil_expr t then Err
                             else
                               let! kt := lit_type k in
                               let! b := x_equals mt (XTy (with_nullability NullUnspecified kt)) in
                               if negb b then Err
                               else
                                 let! ty1 := typ t in
                                 let! ty1 := x_with_nullability NullUnspecified ty1 in
                                 let! b := x_equals out ty1 in
                                 if negb b then Err else go l'
                         end
                     end) cases in
        Ok (ESwitch m cases els)
    end.

(** field_reference.go 565-596 [NewFieldRef]; masks are not implemented *)
Definition new_field_ref (r : root (expr R)) (f : reference) (base : option (list xtype)) : res (expr R) :=
  match f with
  | RefMask _ => Err
  | RefSeg [] => Err
  | RefSeg seg =>
      match r with
      | RRoot =>
          match base with
          | None => Err
          | Some ts => let! t := seg_type seg (x_struct NullRequired 0 ts) in Ok (ERef r f t)
          end
      | RExpr e => let! x := typ e in let! t := seg_type seg x in Ok (ERef r f t)
      | _ => Err
      end
  end.

(** field_reference.go 599-620 [NewFieldRefFromType] *)
Definition new_field_ref_from_type (r : root (expr R)) (f : reference) (t : xtype) : res (expr R) :=
  match f with
  | RefMask _ => Err
  | RefSeg [] => Err
  | RefSeg _ => match r with RRoot | RExpr _ => Ok (ERef r f t) | _ => Err end
  end.

(** functions.go 212-262 [resolveVariant]: the types of the arguments (type arguments are
    left out), the declaration and its result type.  [short] is [Type.ShortString],
    [resolve] is [ResolveType] of the declaration, which may allocate type anchors.
    [common_enum] is the pointer [types.CommonEnumType]. *)
Variable short : ty -> string.
Variable resolve : variant -> list xtype -> eset -> res (ty * eset).
Definition common_enum : xtype := XTy (TEnum true NullUnspecified 0 "" []).

Fixpoint call_arg_types (args : list (farg (expr R))) : res (list xtype) :=
  match args with
  | [] => Ok []
  | AEnum _ :: l => let! r := call_arg_types l in Ok (common_enum :: r)
  | AType _ :: l => call_arg_types l
  | AExpr e :: l =>
      if is_nil_expr e then call_arg_types l
      else let! t := typ e in let! r := call_arg_types l in Ok (t :: r)
  end.

Definition sig_of (s : eset) (x : xtype) : res string :=
  match x with
  | XNil => Panic
  | XTy (TEnum true _ _ _ _) => Ok "req"%string
  | XTy (TUser _ _ ref _) =>
      match decode_type ref s with Some id => Ok ("u!" ++ id_name id)%string | None => Err end
  | XTy t => Ok (short t)
  | XStruct _ _ _ => Ok "struct"%string
  | XList _ _ _ => Ok "list"%string
  | XMap _ _ _ _ => Ok "map"%string
  | XFunc _ _ _ => Ok "func"%string
  end.

Definition has_colon (s : string) : bool := match cut_colon s with Some _ => true | None => false end.

Definition resolve_variant (getter : ext_id -> option variant) (id : ext_id)
  (args : list (farg (expr R))) (s : eset) : res (variant * ty * eset) :=
  let! ts := call_arg_types args in
  let! v := match getter id with
            | Some v => Ok v
            | None =>
                if has_colon (id_name id) then Err
                else
                  let! sigs := mapM (sig_of s) ts in
                  match getter (ExtId (id_urn id) (id_name id ++ ":" ++ String.concat "_" sigs)%string) with
                  | Some v => Ok v
                  | None => Err
                  end
            end in
  let! (t, s') := resolve v ts s in
  Ok (v, t, s').

(** functions.go 276-295 [NewScalarFunc] *)
Definition new_scalar_func (c : coll) (id : ext_id) (opts : list fopt) (args : list (farg (expr R)))
  (s : eset) : res (expr R * eset) :=
  let! (v, t, s1) := resolve_variant (get_scalar c) id args s in
  let! (s2, a) := get_func_anchor (variant_id v) s1 in
  Ok (EScalar a v args opts t, s2).

(** functions.go 506-533 [NewWindowFunc]; the phase INITIAL_TO_RESULT is 3 *)
Definition new_window_func (c : coll) (id : ext_id) (opts : list fopt) (inv phase : Z)
  (args : list (farg (expr R))) (s : eset) : res (expr R * eset) :=
  let! (v, t, s1) := resolve_variant (get_window c) id args s in
  if String.eqb (i_decomp (v_impl v)) "NONE" && negb (phase =? 3) then Err
  else
    let! (s2, a) := get_func_anchor (variant_id v) s1 in
    Ok (EWindow a v args opts t phase inv [] [] 0 None None, s2).

(** functions.go 782-806 [NewAggregateFunc] *)
Definition new_aggregate_func (c : coll) (id : ext_id) (opts : list fopt) (inv phase : Z)
  (sorts : list (expr R * sortkind)) (args : list (farg (expr R))) (s : eset) : res (aggf R * eset) :=
  let! (v, t, s1) := resolve_variant (get_agg c) id args s in
  let! (s2, a) := get_func_anchor (variant_id v) s1 in
  Ok (AggF a (Some v) args opts t phase inv sorts, s2).

(** ** builders *)

(** builder.go: the builders of expressions and function arguments, as terms.  A wrapped
    expression carries its error ([Wrap]).  A lambda's parameters may be nil or contain nil
    types, its body may be nil.  Other nil builders panic and are not modelled. *)
Inductive bld :=
| BWrap (e : expr R) (failed : bool)                     (* Literal, Expression, Wrap *)
| BRef (r : root (expr R)) (f : reference)               (* Ref, RootRef *)
| BLamRef (field : Z) (child : list step) (steps : Z)    (* LambdaParamRef *)
| BCast (b : bld) (t : ty) (fb : Z)
| BParam (t : option ty) (ref : Z)
| BScalar (id : ext_id) (opts : list fopt) (args : list barg)
| BWindow (id : ext_id) (opts : list fopt) (args : list barg) (phase inv : Z) (parts : list bld)
    (sorts : list (expr R * sortkind)) (btype : Z) (lo hi : option bound)
| BLambda (params : option (Z * Z * list (option ty))) (body : option bld)
with barg := BArgExpr (b : bld) | BArgEnum (s : string).

(** What an [ExprBuilder] holds: the stack of enclosing lambdas (lambdaContext, innermost
    last) and the extension set of its registry. *)
Record bstate := BState { b_ctx : list (list ty); b_set : eset }.

(** [res] with the state left behind, also on failure *)
Definition bres (T : Type) := (res T * bstate)%type.
Definition bthen {T U} (r : bres T) (k : T -> bstate -> bres U) : bres U :=
  match r with (Ok a, s) => k a s | (Err, s) => (Err, s) | (Panic, s) => (Panic, s) end.
Definition blift {T} (r : res (T * eset)) (s : bstate) : bres T :=
  match r with
  | Ok (a, s') => (Ok a, BState (b_ctx s) s')
  | Err => (Err, s)
  | Panic => (Panic, s)
  end.
Definition mapB {T U} (f : T -> bstate -> bres U) : list T -> bstate -> bres (list U) :=
  fix go (l : list T) (s : bstate) : bres (list U) :=
    match l with
    | [] => (Ok [], s)
    | x :: l' =>
        match f x s with
        | (Ok y, s1) => match go l' s1 with
                        | (Ok ys, s2) => (Ok (y :: ys), s2)
                        | (Err, s2) => (Err, s2)
                        | (Panic, s2) => (Panic, s2)
                        end
        | (Err, s1) => (Err, s1)
        | (Panic, s1) => (Panic, s1)
        end
    end.

Definition all_some {T} (l : list (option T)) : option (list T) :=
  fold_right (fun x acc => match x, acc with Some a, Some r => Some (a :: r) | _, _ => None end) (Some []) l.

(** builder.go 562-580 [getLambdaParamType] *)
Definition lambda_param_type (ctx : list (list ty)) (field : Z) (child : list step) (steps : Z) : res xtype :=
  let n := Z.of_nat (List.length ctx) in
  if n <=? steps then Err
  else match nth_error ctx (Z.to_nat (n - 1 - steps)) with
       | None => Panic
       | Some ps =>
           if Z.of_nat (List.length ps) <=? field then Err
           else seg_type (SField field :: child) (XTy (TStruct NullRequired 0 ps))
       end.

Variable c : coll.
Variable base : option (list xtype).    (* BaseSchema *)

(** functions.go 633-639 [validate]; the bounds type RANGE is 2 *)
Definition window_valid (btype : Z) (sorts : list (expr R * sortkind)) : bool :=
  negb ((btype =? 2) && negb (Nat.eqb (List.length sorts) 1)).

(** The [Build] methods: builder.go 224-256, 274-304, 318-326, 339-349, 382-411, 529-558. *)
Fixpoint build (b : bld) (s : bstate) : bres (expr R) :=
  match b with
  | BWrap e failed => (if failed then Err else Ok e, s)
  | BRef r f => (new_field_ref r f base, s)
  | BLamRef field child steps =>
      (let! t := lambda_param_type (b_ctx s) field child steps in
       Ok (ERef (RLambda steps) (RefSeg (SField field :: child)) t), s)
  | BCast b t fb => bthen (build b s) (fun e s1 => (Ok (ECast t e fb), s1))
  | BParam t ref => (match t with None => Err | Some t => Ok (EParam t ref) end, s)
  | BScalar id opts args =>
      bthen (mapB build_arg args s) (fun args' s1 =>
        blift (new_scalar_func c id opts args' (b_set s1)) s1)
  | BWindow id opts args phase inv parts sorts btype lo hi =>
      bthen (mapB build_arg args s) (fun args' s1 =>
      bthen (mapB build parts s1) (fun parts' s2 =>
      bthen (blift (new_window_func c id opts inv phase args' (b_set s2)) s2) (fun w s3 =>
        match w with
        | EWindow n v args opts t phase inv _ _ _ _ _ =>
            (if window_valid btype sorts
             then Ok (EWindow n v args opts t phase inv parts' sorts btype lo hi) else Err, s3)
        | _ => (Panic, s3)
        end)))
  | BLambda params body =>
      match params with
      | None => (Err, s)
      | Some (n, v, ts) =>
          if negb (n =? NullRequired) then (Err, s)
          else match all_some ts with
               | None => (Err, s)
               | Some ps =>
                   match body with
                   | None => (Err, s)
                   | Some b =>
                       match build b (BState (b_ctx s ++ [ps])%list (b_set s)) with
                       | (r, s1) =>
                           let s2 := BState (removelast (b_ctx s1)) (b_set s1) in
                           match r with
                           | Ok e => (Ok (ELambda n v ps e), s2)
                           | Err => (Err, s2)
                           | Panic => (Panic, s1)
                           end
                       end
                   end
               end
      end
  end
with build_arg (a : barg) (s : bstate) : bres (farg (expr R)) :=
  match a with
  | BArgEnum x => (Ok (AEnum x), s)
  | BArgExpr b => bthen (build b s) (fun e s1 => (Ok (AExpr e), s1))
  end.
End Constructors.
