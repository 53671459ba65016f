(** Model of the builders of /repo/expr/builder.go as objects: what the methods that change a builder do, and [Build] of a builder whose
    arguments are builders.  Definitions only; theorems are in FluentProps.v.

    A builder is named by its number, in the order in which they were made; the builders are those of one [ExprBuilder].  The methods
    return the builder they are called on, so the number does for what they return.  Calls on nil builders panic and are left out.  Lists of
    arguments, partitions and sort fields are values here: in the code a list passed with [...] is shared with the caller. *)

From Coq Require Import ZArith String Bool List.
From Verif Require Import Base FMap TypesModel ExtSetModel LoadModel LitModel ExprModel ExprOpsModel.
Import ListNotations.
Local Open Scope Z_scope.

Section Fluent.
Context {R : Type}.

(** builder.go 280-290 [FuncArgBuilder], [enumWrapper] *)
Inductive narg := NBuilder (b : nat) | NEnum (s : string).
(** the structs of builder.go 217-221, 269-272, 291-295, 313-316, 331-337, 366-380, 471-480, 523-528, 546-550 *)
Inductive node :=
| NWrap (e : expr R) (failed : bool)
| NRef (r : root (expr R)) (f : reference)
| NLamRef (field : Z) (child : list step) (steps : Z)
| NCast (b : nat) (t : ty) (fb : Z)
| NParam (t : option ty) (ref : Z)
| NScalar (id : ext_id) (opts : list fopt) (args : list narg)
| NWindow (id : ext_id) (opts : list fopt) (args : list narg) (phase inv : Z) (parts : list nat)
    (sorts : list (expr R * sortkind)) (btype : Z) (lo hi : option bound)
| NAgg (id : ext_id) (opts : list fopt) (args : list narg) (phase inv : Z) (sorts : list (expr R * sortkind))
| NLambda (params : option (Z * Z * list (option ty))) (body : option nat).
Definition heap := list node.

(** the methods of [ExprBuilder] that make builders (53-206) and those that change them *)
Inductive fcall :=
| MkWrap (e : expr R) (failed : bool)
| MkRef (r : root (expr R)) (f : reference)
| MkLamRef (field : Z) (child : list step) (steps : Z)
| MkCast (b : nat) (t : ty)
| MkParam (t : option ty) (ref : Z)
| MkScalar (id : ext_id) (opts : list fopt)
| MkWindow (id : ext_id) (opts : list fopt)
| MkAgg (id : ext_id) (opts : list fopt)
| MkLambda (params : option (Z * Z * list (option ty))) (body : option nat)
| SetFail (b : nat) (fb : Z)
| SetArgs (b : nat) (args : list narg)
| SetPhase (b : nat) (z : Z)
| SetInvocation (b : nat) (z : Z)
| SetSort (b : nat) (l : list (expr R * sortkind))
| SetPartitions (b : nat) (l : list nat)
| SetBounds (b : nat) (lo hi : option bound)
| SetBoundsType (b : nat) (z : Z).

(** assigning a field of builder [b] *)
Fixpoint change (b : nat) (f : node -> node) (h : heap) : heap :=
  match h, b with
  | [], _ => []
  | x :: h', O => f x :: h'
  | x :: h', S b' => x :: change b' f h'
  end.

(** 308-311 [FailBehavior]; 361-364, 423-426, 496-499 [Args]; 430-433, 503-506 [Phase]; 437-440, 510-513 [Invocation]; 444-447 [Sort],
    517-520 [Sorts]; 453-456 [Partitions]; 458-461 [Bounds]; 465-468 [BoundsType].  Builders without the method: no such call can be written. *)
Definition set_fail (fb : Z) (n : node) : node := match n with NCast b t _ => NCast b t fb | _ => n end.
Definition set_args (args : list narg) (n : node) : node :=
  match n with
  | NScalar id opts _ => NScalar id opts args
  | NWindow id opts _ ph inv parts sorts bt lo hi => NWindow id opts args ph inv parts sorts bt lo hi
  | NAgg id opts _ ph inv sorts => NAgg id opts args ph inv sorts
  | _ => n
  end.
Definition set_phase (z : Z) (n : node) : node :=
  match n with
  | NWindow id opts args _ inv parts sorts bt lo hi => NWindow id opts args z inv parts sorts bt lo hi
  | NAgg id opts args _ inv sorts => NAgg id opts args z inv sorts
  | _ => n
  end.
Definition set_invocation (z : Z) (n : node) : node :=
  match n with
  | NWindow id opts args ph _ parts sorts bt lo hi => NWindow id opts args ph z parts sorts bt lo hi
  | NAgg id opts args ph _ sorts => NAgg id opts args ph z sorts
  | _ => n
  end.
Definition set_sort (l : list (expr R * sortkind)) (n : node) : node :=
  match n with
  | NWindow id opts args ph inv parts _ bt lo hi => NWindow id opts args ph inv parts l bt lo hi
  | NAgg id opts args ph inv _ => NAgg id opts args ph inv l
  | _ => n
  end.
Definition set_partitions (l : list nat) (n : node) : node :=
  match n with NWindow id opts args ph inv _ sorts bt lo hi => NWindow id opts args ph inv l sorts bt lo hi | _ => n end.
Definition set_bounds (lo hi : option bound) (n : node) : node :=
  match n with NWindow id opts args ph inv parts sorts bt _ _ => NWindow id opts args ph inv parts sorts bt lo hi | _ => n end.
Definition set_bounds_type (z : Z) (n : node) : node :=
  match n with NWindow id opts args ph inv parts sorts _ lo hi => NWindow id opts args ph inv parts sorts z lo hi | _ => n end.

(** 53-206 and the methods above; a new builder gets the next number, what is not given is the zero value *)
Definition fstep (h : heap) (k : fcall) : heap :=
  match k with
  | MkWrap e failed => h ++ [NWrap e failed]
  | MkRef r f => h ++ [NRef r f]
  | MkLamRef i l n => h ++ [NLamRef i l n]
  | MkCast b t => h ++ [NCast b t 0]
  | MkParam t n => h ++ [NParam t n]
  | MkScalar id opts => h ++ [NScalar id opts []]
  | MkWindow id opts => h ++ [NWindow id opts [] 0 0 [] [] 0 None None]
  | MkAgg id opts => h ++ [NAgg id opts [] 0 0 []]
  | MkLambda ps body => h ++ [NLambda ps body]
  | SetFail b z => change b (set_fail z) h
  | SetArgs b l => change b (set_args l) h
  | SetPhase b z => change b (set_phase z) h
  | SetInvocation b z => change b (set_invocation z) h
  | SetSort b l => change b (set_sort l) h
  | SetPartitions b l => change b (set_partitions l) h
  | SetBounds b lo hi => change b (set_bounds lo hi) h
  | SetBoundsType b z => change b (set_bounds_type z) h
  end%list.
Definition frun (l : list fcall) : heap := fold_left fstep l [].

(** ** building *)

Variable rel_schema : R -> res (list xtype).
Variable short : ty -> string.
Variable resolve : variant -> list xtype -> eset -> res (ty * eset).
Variable c : coll.
Variable base : option (list xtype).

(** [None]: not finished with the calls allowed *)
Definition othen {T U} (r : option (bres T)) (k : T -> bstate -> option (bres U)) : option (bres U) :=
  match r with
  | None => None
  | Some (Ok a, s) => k a s
  | Some (Err, s) => Some (Err, s)
  | Some (Panic, s) => Some (Panic, s)
  end.
Definition mapO {T U} (f : T -> bstate -> option (bres U)) : list T -> bstate -> option (bres (list U)) :=
  fix go (l : list T) (s : bstate) : option (bres (list U)) :=
    match l with
    | [] => Some (Ok [], s)
    | x :: l' => othen (f x s) (fun y s1 => othen (go l' s1) (fun ys s2 => Some (Ok (y :: ys), s2)))
    end.

(** 286-288, 265, 297, 355, 413, 586: [BuildFuncArg] *)
Definition hbuild_arg (build_one : nat -> bstate -> option (bres (expr R))) (a : narg) (s : bstate) : option (bres (farg (expr R))) :=
  match a with
  | NEnum x => Some (Ok (AEnum x), s)
  | NBuilder b => othen (build_one b s) (fun e s1 => Some (Ok (AExpr e), s1))
  end.

(** The [Build] methods 224-256, 274-304, 318-326, 339-349, 382-411, 529-558, with at most [fuel] calls inside each other.  An aggregate
    function is no expression: its builder cannot be passed where one is wanted. *)
Fixpoint hbuild (fuel : nat) (h : heap) (b : nat) (s : bstate) : option (bres (expr R)) :=
  match fuel with
  | O => None
  | S n =>
      match nth_error h b with
      | None | Some (NAgg _ _ _ _ _ _) => Some (Panic, s)
      | Some (NWrap e failed) => Some (if failed then Err else Ok e, s)
      | Some (NRef r f) => Some (new_field_ref rel_schema r f base, s)
      | Some (NLamRef field child steps) =>
          Some (let! t := lambda_param_type (b_ctx s) field child steps in
                Ok (ERef (RLambda steps) (RefSeg (SField field :: child)) t), s)
      | Some (NCast b t fb) => othen (hbuild n h b s) (fun e s1 => Some (Ok (ECast t e fb), s1))
      | Some (NParam t ref) => Some (match t with None => Err | Some t => Ok (EParam t ref) end, s)
      | Some (NScalar id opts args) =>
          othen (mapO (hbuild_arg (hbuild n h)) args s) (fun args' s1 =>
            Some (blift (new_scalar_func rel_schema short resolve c id opts args' (b_set s1)) s1))
      | Some (NWindow id opts args phase inv parts sorts btype lo hi) =>
          othen (mapO (hbuild_arg (hbuild n h)) args s) (fun args' s1 =>
          othen (mapO (hbuild n h) parts s1) (fun parts' s2 =>
          othen (Some (blift (new_window_func rel_schema short resolve c id opts inv phase args' (b_set s2)) s2)) (fun w s3 =>
            match w with
            | EWindow n v args opts t phase inv _ _ _ _ _ =>
                Some (if window_valid btype sorts
                      then Ok (EWindow n v args opts t phase inv parts' sorts btype lo hi) else Err, s3)
            | _ => Some (Panic, s3)
            end)))
      | Some (NLambda params body) =>
          match params with
          | None => Some (Err, s)
          | Some (nl, v, ts) =>
              if negb (nl =? NullRequired) then Some (Err, s)
              else match all_some ts, body with
                   | Some ps, Some b =>
                       match hbuild n h b (BState (b_ctx s ++ [ps])%list (b_set s)) with
                       | None => None
                       | Some (r, s1) =>
                           let s2 := BState (removelast (b_ctx s1)) (b_set s1) in
                           match r with
                           | Ok e => Some (Ok (ELambda nl v ps e), s2)
                           | Err => Some (Err, s2)
                           | Panic => Some (Panic, s1)
                           end
                       end
                   | _, _ => Some (Err, s)
                   end
          end
      end
  end.

(** 482-492 [Build] of an aggregate function *)
Definition hbuild_agg (fuel : nat) (h : heap) (b : nat) (s : bstate) : option (bres (aggf R)) :=
  match nth_error h b with
  | Some (NAgg id opts args phase inv sorts) =>
      othen (mapO (hbuild_arg (hbuild fuel h)) args s) (fun args' s1 =>
        Some (blift (new_aggregate_func rel_schema short resolve c id opts inv phase sorts args' (b_set s1)) s1))
  | _ => Some (Panic, s)
  end.
End Fluent.
Arguments node : clear implicits.
Arguments heap : clear implicits.
Arguments fcall : clear implicits.
