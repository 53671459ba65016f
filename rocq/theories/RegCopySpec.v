(** Specification of registries that are copied: which of them share decoders, by the history of calls. *)

From Coq Require Import String Bool List.
From Verif Require Import RegCopyModel.
Import ListNotations.

Section Spec.
Context {D K : Type}.

(** the number of registries made *)
Fixpoint made_by (l : list (rcall D K)) : nat :=
  match l with
  | [] => 0
  | RNew _ :: l' | RCopy _ :: l' => S (made_by l')
  | _ :: l' => made_by l'
  end.
(** the registry a call is about *)
Definition about (c : rcall D K) : option nat :=
  match c with RNew _ => None | RCopy r | RSetConverter r _ | RSetDecoder r _ _ => Some r end.
(** calls are about registries made before *)
Definition proper (l : list (rcall D K)) : Prop :=
  forall before c after r, l = (before ++ c :: after)%list -> about c = Some r -> r < made_by before.

(** Two registries share their decoders, and a registry has decoders: a copy shares those of the registry it is made of if that one has any then. *)
Inductive linked : list (rcall D K) -> nat -> nat -> Prop :=
| L_self h r : r < made_by h -> linked h r r
| L_later h c a b : linked h a b -> linked (h ++ [c]) a b
| L_copy h a b : linked h a b -> has_decoders h a -> linked (h ++ [RCopy a]) b (made_by h)
| L_sym h a b : linked h a b -> linked h b a
with has_decoders : list (rcall D K) -> nat -> Prop :=
| H_set h r url d : r < made_by h -> has_decoders (h ++ [RSetDecoder r url d]) r
| H_link h a b : has_decoders h a -> linked h a b -> has_decoders h b
| H_later h c r : has_decoders h r -> has_decoders (h ++ [c]) r.

(** [d] is the decoder of the first registration for [url] at a registry that shares its decoders with [r] *)
Definition first_registered (h : list (rcall D K)) (r : nat) (url : string) (d : option D) : Prop :=
  exists before r' after, h = (before ++ RSetDecoder r' url d :: after)%list /\ linked h r' r /\
    forall r2 d2, In (RSetDecoder r2 url d2) before -> ~ linked h r2 r.
End Spec.
