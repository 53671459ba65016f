(** Model of the default collection: how it is loaded, and how any number of goroutines that ask for
    it at the same time get it.  /repo/extensions/extension_mgr.go, and sync.OnceValues and sync.Once of
    the Go library it is built with.  Definitions only.

    The interleaving is of single reads and writes of shared memory, in one order for all goroutines (what
    Go's atomics and mutexes promise).  One file is loaded in one step: until the end nobody else
    has the collection. *)

From Coq Require Import List Bool Arith String.
From Verif Require Import Base LoadModel PlanAliasModel.
Import ListNotations.

(** An entry of the embedded directory: its name, and what opening and decoding it give. *)
Inductive content := Unreadable | Garbled | Holds (f : file).
Record entry := Entry { e_name : string; e_content : content }.

(** 79-99 [loadExtensionFile] (28-30: the unsupported files) *)
Definition load_entry (e : entry) (c : coll) : coll * bool :=
  match e_content e with
  | Unreadable => (c, false)
  | Garbled => if String.eqb (e_name e) "unknown.yaml" then (c, true) else load None c
  | Holds f => if String.eqb (e_name e) "unknown.yaml" then (c, true) else load (Some f) c
  end.

(** What a caller gets: the zero values, an error without a collection, or a collection by its place
    in memory. *)
Inductive result := RNil | RErr | RPtr (p : nat).
Inductive outcome := Got (r : result) | Panicked.

(** Where a goroutine that called [GetDefaultCollection] (58-60) is. *)
Inductive pc :=
| Start                                (* Once.Do: about to look at done *)
| Lock                                 (* doSlow: about to lock *)
| Check                                (* locked, about to look at done again *)
| Loading (es : list entry) (p : nat)  (* 62-77 [loadDefaultCollection], with the entries left *)
| Store (r : result)                   (* it returned: r1, r2 = f() *)
| SetValid                             (* valid = true *)
| SetDone                              (* deferred: done.Store(1) *)
| Unlock                               (* deferred: m.Unlock() *)
| Read                                 (* Do returned: if !valid panic, return r1, r2 *)
| Returned (o : outcome).

(** Shared memory: the variables of sync.Once and sync.OnceValues, and the collections; [s_loads]
    counts how often [loadDefaultCollection] was entered. *)
Record st := St {
  s_done : bool; s_lock : bool; s_valid : bool; s_res : result;
  s_heap : list coll; s_loads : nat; s_pcs : list pc }.
Definition initial : st := St false false false RNil [] 0 [].

Section Steps.
Variable entries : list entry.

(** the next step of goroutine [i], which is at [x]; one that waits for the lock does nothing *)
Definition advance (s : st) (i : nat) (x : pc) : st :=
  let 'St done lock valid r h n pcs := s in
  let go y := put i y pcs in
  match x with
  | Start => St done lock valid r h n (go (if done then Read else Lock))
  | Lock => if lock then s else St done true valid r h n (go Check)
  | Check =>
      if done then St done lock valid r h n (go Unlock)
      else St done lock valid r (h ++ [empty_coll])%list (S n) (go (Loading entries (List.length h)))
  | Loading [] p => St done lock valid r h n (go (Store (RPtr p)))
  | Loading (e :: es) p =>
      let '(c, ok) := load_entry e (nth p h empty_coll) in
      St done lock valid r (put p c h) n (go (if ok then Loading es p else Store RErr))
  | Store r' => St done lock valid r' h n (go SetValid)
  | SetValid => St done lock true r h n (go SetDone)
  | SetDone => St true lock valid r h n (go Unlock)
  | Unlock => St done false valid r h n (go Read)
  | Read => St done lock valid r h n (go (Returned (if valid then Got r else Panicked)))
  | Returned _ => s
  end.

(** What the scheduler can let happen: another goroutine calls, goroutine [i] takes a step, or goroutine
    [i], which has a collection, loads a file into it (199-308). *)
Inductive event := Call | Run (i : nat) | Use (i : nat) (f : option file).
Definition happen (s : st) (e : event) : st :=
  match e with
  | Call => let 'St done lock valid r h n pcs := s in St done lock valid r h n (pcs ++ [Start])%list
  | Run i => match nth_error (s_pcs s) i with Some x => advance s i x | None => s end
  | Use i f =>
      match nth_error (s_pcs s) i with
      | Some (Returned (Got (RPtr p))) =>
          let 'St done lock valid r h n pcs := s in St done lock valid r (put p (fst (load f (nth p h empty_coll))) h) n pcs
      | _ => s
      end
  end.
Definition schedule (s : st) (es : list event) : st := fold_left happen es s.
End Steps.

(** 49-55 [GetDefaultCollectionWithNoError], after the call returned *)
Definition with_no_error (o : outcome) : outcome :=
  match o with
  | Got RErr => Panicked
  | o => o
  end.
