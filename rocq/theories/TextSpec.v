(** Specification vocabulary for texts of types (C55 …), written without the
    model's lexer, parser or printer. *)

From Coq Require Import ZArith String Ascii Bool List.
From Verif Require Import Base TypesModel SigModel.
Import ListNotations.
Local Open Scope string_scope.

(** * Names *)

Definition chars (s : string) : list ascii := list_ascii_of_string s.

Definition lower_letters : list ascii := chars "abcdefghijklmnopqrstuvwxyz".
Definition upper_letters : list ascii := chars "ABCDEFGHIJKLMNOPQRSTUVWXYZ".
Definition digit_chars : list ascii := chars "0123456789".

(** Two characters are the same letter: equal, or one the capital of the other. *)
Definition same_letter (a b : ascii) : Prop :=
  a = b \/
  exists i, (nth_error lower_letters i = Some a /\ nth_error upper_letters i = Some b) \/
            (nth_error upper_letters i = Some a /\ nth_error lower_letters i = Some b).

(** Two texts differ only in the case of their letters. *)
Definition same_letters (s t : string) : Prop := Forall2 same_letter (chars s) (chars t).

(** The words with a meaning of their own in type expressions. *)
Definition reserved_words : list string :=
  ["if"; "then"; "else"; "func"; "boolean"; "i8"; "i16"; "i32"; "i64"; "fp32"; "fp64";
   "string"; "binary"; "timestamp"; "timestamp_tz"; "date"; "time"; "interval_year";
   "interval_day"; "interval_compound"; "uuid"; "decimal"; "precision_time";
   "precision_timestamp"; "precision_timestamp_tz"; "fixedchar"; "varchar";
   "fixedbinary"; "struct"; "nstruct"; "list"; "map"; "bool"; "str"; "vbin"; "ts";
   "tstz"; "iyear"; "iday"; "icompound"; "dec"; "pt"; "pts"; "ptstz"; "fchar";
   "vchar"; "fbin"; "any"; "and"; "or"].

Definition reserved (s : string) : Prop := exists w, In w reserved_words /\ same_letters s w.

(** any0, any1, … any9, in any case. *)
Definition any_variable (s : string) : Prop :=
  exists d, In d digit_chars /\ same_letters s (String "a" (String "n" (String "y" (String d "")))).

(** Letters, underscores, dollars and digits, not starting with a digit. *)
Definition letter_char (c : ascii) : Prop :=
  In c lower_letters \/ In c upper_letters \/ c = "_"%char \/ c = "$"%char.
Definition wordlike (s : string) : Prop :=
  match s with
  | EmptyString => False
  | String c r => letter_char c /\ Forall (fun x => letter_char x \/ In x digit_chars) (chars r)
  end.

Definition identifier (s : string) : Prop := wordlike s /\ ~ reserved s /\ ~ any_variable s.

(** Without capitals. *)
Definition uncapitalised (s : string) : Prop := Forall (fun c => ~ In c upper_letters) (chars s).

(** * C55: the types whose printed form says what they are *)

(** Marked required (2) or nullable (1), with the system-preferred variation. *)
Definition marked (n v : Z) : Prop := (n = 1 \/ n = 2)%Z /\ v = 0%Z.

Definition numeral_or_name (i : iparam) : Prop :=
  match i with IConc z => in_int 32 z | IVar s => identifier s end.

Fixpoint writable (f : fdt) : Prop :=
  match f with
  | FPrim _ n v => marked n v
  | FEnum _ _ _ _ _ => False
  | FSingle _ n v i => marked n v /\ numeral_or_name i
  | FDecimal n v p s => marked n v /\ numeral_or_name p /\ numeral_or_name s
  | FAny name v n => marked n v /\ (name = "any" \/ any_variable name)
  | FList n v e => marked n v /\ writable e
  | FMap n v k x => marked n v /\ writable k /\ writable x
  | FStruct n v fs => marked n v /\ fs <> [] /\ All writable fs
  | FFunc n ps r => marked n 0 /\ length ps = 1%nat /\ All writable ps /\ writable r
  | FUser n v ps name =>
      marked n v /\ identifier name /\
      All (fun p => match p with
                    | UData f => writable f
                    | UInt z => in_int 32 z
                    | UStr s => identifier s
                    end) ps
  | FDeriv _ _ => False
  end.

(** Expressions of derivations.  A conditional written with a question mark can
    only stand where nothing follows it ([Alone]), a conditional written with if
    or a negation also where no operator follows ([Last]), the others anywhere
    ([Operand]). *)
Inductive place := Operand | Last | Alone.

Fixpoint readable (m : place) (d : dexpr) : Prop :=
  match d with
  | DNum z => in_int 64 z
  | DName s => identifier s
  | DBin op l r => op <> OpUnknown /\ readable Operand l /\ readable Operand r
  | DCall name args => identifier name /\ uncapitalised name /\ All (readable Alone) args
  | DNot e => m <> Operand /\ readable Last e
  | DIf false c t e => m <> Operand /\ readable Alone c /\ readable Alone t /\ readable Last e
  | DIf true c t e => m = Alone /\ readable Last c /\ readable Alone t /\ readable Last e
  end.

(** A type, or one with a derivation in front. *)
Definition written (f : fdt) : Prop :=
  match f with
  | FDeriv l g =>
      l <> [] /\ Forall (fun a => identifier (fst a) /\ readable Alone (snd a)) l /\ writable g
  | _ => writable f
  end.

(** * C56: what can be written *)

(** Expressions that can be read from some text. *)
Fixpoint sane_expr (d : dexpr) : Prop :=
  match d with
  | DNum z => in_int 64 z
  | DName s => identifier s
  | DBin op l r => op <> OpUnknown /\ sane_expr l /\ sane_expr r
  | DIf _ c t e => sane_expr c /\ sane_expr t /\ sane_expr e
  | DNot e => sane_expr e
  | DCall name args => identifier name /\ uncapitalised name /\ All sane_expr args
  end.

(** Types that can be read from some text.  The final type of a derivation is not
    itself a derivation. *)
Fixpoint sane (f : fdt) : Prop :=
  match f with
  | FPrim _ n v => marked n v
  | FEnum _ _ _ _ _ => False
  | FSingle _ n v i => marked n v /\ numeral_or_name i
  | FDecimal n v p s => marked n v /\ numeral_or_name p /\ numeral_or_name s
  | FAny name v n => marked n v /\ (name = "any" \/ any_variable name)
  | FList n v e => marked n v /\ sane e
  | FMap n v k x => marked n v /\ sane k /\ sane x
  | FStruct n v fs => marked n v /\ fs <> [] /\ All sane fs
  | FFunc n ps r => marked n 0 /\ All sane ps /\ sane r
  | FUser n v ps name =>
      marked n v /\ identifier name /\
      All (fun p => match p with
                    | UData f => sane f
                    | UInt z => in_int 32 z
                    | UStr s => identifier s
                    end) ps
  | FDeriv l g =>
      l <> [] /\ All (fun a => let (x, d) := a : string * dexpr in identifier x /\ sane_expr d) l /\ sane g /\
      match g with FDeriv _ _ => False | _ => True end
  end.

(** * C57: concrete types *)

(** The type definition [f] says exactly the concrete type [t], its variation aside. *)
Inductive says : fdt -> ty -> Prop :=
| Y_prim p n v : says (FPrim p n 0) (TPrim p n v)
| Y_fixed k n v z : says (FSingle (SFixed k) n 0 (IConc z)) (TFixed k n v z)
| Y_decimal n v p s : says (FDecimal n 0 (IConc p) (IConc s)) (TDecimal n v p s)
| Y_prec_time n v z : says (FSingle SPrecTime n 0 (IConc z)) (TPrecTime n v z)
| Y_prec_ts n v z : says (FSingle SPrecTs n 0 (IConc z)) (TPrecTs n v z)
| Y_prec_ts_tz n v z : says (FSingle SPrecTsTz n 0 (IConc z)) (TPrecTsTz n v z)
| Y_interval_day n v z : says (FSingle SIntervalDay n 0 (IConc z)) (TIntervalDay n v z)
| Y_list n v e e' : says e e' -> says (FList n 0 e) (TList n v e')
| Y_map n v k k' x x' : says k k' -> says x x' -> says (FMap n 0 k x) (TMap n v k' x')
| Y_struct n v fs fs' : Forall2 says fs fs' -> says (FStruct n 0 fs) (TStruct n v fs')
| Y_func n ps ps' r r' : Forall2 says ps ps' -> says r r' -> says (FFunc n ps r) (TFunc n ps' r').

(** Required or nullable at every level, with int32 parameters, without the kinds
    that have no text of their own, and functions with one parameter. *)
Fixpoint printable (t : ty) : Prop :=
  match t with
  | TPrim _ n _ => (n = 1 \/ n = 2)%Z
  | TFixed _ n _ z | TPrecTime n _ z | TPrecTs n _ z | TPrecTsTz n _ z | TIntervalDay n _ z =>
      (n = 1 \/ n = 2)%Z /\ in_int 32 z
  | TDecimal n _ p s => (n = 1 \/ n = 2)%Z /\ in_int 32 p /\ in_int 32 s
  | TStruct n _ fs => (n = 1 \/ n = 2)%Z /\ fs <> [] /\ All printable fs
  | TFunc n ps r => (n = 1 \/ n = 2)%Z /\ length ps = 1%nat /\ All printable ps /\ printable r
  | TList n _ e => (n = 1 \/ n = 2)%Z /\ printable e
  | TMap n _ k x => (n = 1 \/ n = 2)%Z /\ printable k /\ printable x
  | TIntervalCompound _ _ _ _ | TIntervalYearToMonth _ _ | TEnum _ _ _ _ _ | TUser _ _ _ _ => False
  end.

(** The same type, variations aside. *)
Inductive same_type : ty -> ty -> Prop :=
| M_prim p n v w : same_type (TPrim p n v) (TPrim p n w)
| M_fixed k n v w z : same_type (TFixed k n v z) (TFixed k n w z)
| M_decimal n v w p s : same_type (TDecimal n v p s) (TDecimal n w p s)
| M_prec_time n v w z : same_type (TPrecTime n v z) (TPrecTime n w z)
| M_prec_ts n v w z : same_type (TPrecTs n v z) (TPrecTs n w z)
| M_prec_ts_tz n v w z : same_type (TPrecTsTz n v z) (TPrecTsTz n w z)
| M_interval_day n v w z : same_type (TIntervalDay n v z) (TIntervalDay n w z)
| M_list n v w e e' : same_type e e' -> same_type (TList n v e) (TList n w e')
| M_map n v w k k' x x' : same_type k k' -> same_type x x' -> same_type (TMap n v k x) (TMap n w k' x')
| M_struct n v w fs fs' : Forall2 same_type fs fs' -> same_type (TStruct n v fs) (TStruct n w fs')
| M_func n ps ps' r r' : Forall2 same_type ps ps' -> same_type r r' -> same_type (TFunc n ps r) (TFunc n ps' r').
