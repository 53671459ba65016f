(** Model of extension registries as values that are copied: /repo/expr/utils.go 30-97.  Definitions only; theorems are in RegCopyProps.v.

    [ExtensionRegistry] is a struct that is passed and assigned by value (the registry of an [ExprBuilder], of a plan, of a converter of
    subqueries are copies); its extension set is behind an interface and its decoders are in a map, both shared by copies, but the map is made
    by the first registration only.  Extension sets and maps are named by numbers. *)

From Coq Require Import String Bool List.
Import ListNotations.

Section Registries.
(** decoders, converters of subqueries; [None] is nil *)
Context {D K : Type}.

(** 32-42; the collection is fixed *)
Record xreg := XReg { x_set : nat; x_conv : option K; x_decs : option nat }.
Definition dmap := list (string * option D).
Record world := World { w_maps : list dmap; w_regs : list xreg }.

(** what is done with registries: [NewExtensionRegistry] (86-91), an assignment that copies, [SetSubqueryConverter] (59-61) and
    [SetExtensionRelDecoder] (67-76) *)
Inductive rcall :=
| RNew (set : nat)
| RCopy (r : nat)
| RSetConverter (r : nat) (k : option K)
| RSetDecoder (r : nat) (url : string) (d : option D).

Fixpoint entry (m : dmap) (url : string) : option (option D) :=
  match m with
  | [] => None
  | (u, d) :: m' => if String.eqb u url then Some d else entry m' url
  end.
Fixpoint put {T} (n : nat) (x : T) (l : list T) : list T :=
  match l, n with
  | [], _ => []
  | _ :: l', O => x :: l'
  | y :: l', S n' => y :: put n' x l'
  end.
Definition map_of (w : world) (r : xreg) : dmap :=
  match x_decs r with None => [] | Some m => nth m (w_maps w) [] end.

(** one call, and whether it returned without an error; calls on registries that were not made cannot be written *)
Definition rstep (w : world) (c : rcall) : world * bool :=
  match c with
  | RNew set => (World (w_maps w) (w_regs w ++ [XReg set None None]), true)
  | RCopy r =>
      match nth_error (w_regs w) r with
      | None => (w, true)
      | Some x => (World (w_maps w) (w_regs w ++ [x]), true)
      end
  | RSetConverter r k =>
      match nth_error (w_regs w) r with
      | None => (w, true)
      | Some x => (World (w_maps w) (put r (XReg (x_set x) k (x_decs x)) (w_regs w)), true)
      end
  | RSetDecoder r url d =>
      match nth_error (w_regs w) r with
      | None => (w, true)
      | Some x =>
          match x_decs x with
          | None =>
              (World (w_maps w ++ [[(url, d)]]) (put r (XReg (x_set x) (x_conv x) (Some (List.length (w_maps w)))) (w_regs w)), true)
          | Some m =>
              match entry (map_of w x) url with
              | Some _ => (w, false)
              | None => (World (put m ((url, d) :: map_of w x) (w_maps w)) (w_regs w), true)
              end
          end
      end
  end.
Definition rrun (l : list rcall) : world := fold_left (fun w c => fst (rstep w c)) l (World [] []).

(** 79-81 [ExtensionRelDecoderFor] *)
Definition decoder_for (w : world) (r : nat) (url : string) : option D :=
  match nth_error (w_regs w) r with
  | None => None
  | Some x => match entry (map_of w x) url with Some d => d | None => None end
  end.
End Registries.
Arguments world : clear implicits.
Arguments rcall : clear implicits.
Arguments xreg : clear implicits.
