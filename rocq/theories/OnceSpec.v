(** Specification vocabulary for C75: the default collection, loaded by one goroutine alone. *)

From Coq Require Import List Bool Arith String.
From Verif Require Import Base LoadModel OnceModel.
Import ListNotations.

(** The files of a directory loaded one after the other, all but "unknown.yaml": the collection, or nothing if a
    file cannot be opened, or one that counts cannot be decoded or loaded. *)
Inductive loads_to : coll -> list entry -> option coll -> Prop :=
| Loads_end c : loads_to c [] (Some c)
| Loads_skip c x es r : x <> Unreadable -> loads_to c es r -> loads_to c (Entry "unknown.yaml" x :: es) r
| Loads_file c name f c' es r : name <> "unknown.yaml"%string -> load (Some f) c = (c', true) -> loads_to c' es r ->
    loads_to c (Entry name (Holds f) :: es) r
| Loads_unreadable c name es : loads_to c (Entry name Unreadable :: es) None
| Loads_garbled c name es : name <> "unknown.yaml"%string -> loads_to c (Entry name Garbled :: es) None
| Loads_refused c name f c' es : name <> "unknown.yaml"%string -> load (Some f) c = (c', false) ->
    loads_to c (Entry name (Holds f) :: es) None.

(** the files goroutines loaded into the collection themselves *)
Definition used (evs : list event) (f : option file) : Prop := exists i, In (Use i f) evs.
Definition finished (s : st) : Prop := forall x, In x (s_pcs s) -> exists o, x = Returned o.
