(** What a text of a type says, from the characters up, without the model's lexer,
    parser or visitor: the lexical rules with the longest match, and the grammar
    with the meaning of each of its phrases.  Only the data type of tokens is
    shared with the model. *)

From Coq Require Import ZArith String Ascii Bool List.
From Verif Require Import Base TypesModel SigModel FuncSpec TextModel TextSpec.
Import ListNotations.
Local Open Scope string_scope.

(** * Lexical rules *)

Definition symbols : list string :=
  ["::"; "+"; "-"; "*"; "/"; "%"; "="; "!="; ">="; "<="; ">"; "<"; "!"; "("; ")"; "["; "]";
   ","; ":"; "?"; "#"; "."; ":="; "->"].

(** 0, or digits that do not start with 0. *)
Definition number_text (w : string) : Prop :=
  w = "0" \/
  exists c r, w = String c r /\ In c digit_chars /\ c <> "0"%char /\ Forall (fun d => In d digit_chars) (chars r).

Definition stars (w : string) : Prop := Forall (fun c => c = "*"%char) (chars w).

(** A piece of text that one lexical rule matches, and the token it gives, if it is
    not left out. *)
Inductive lexeme : string -> option tok -> Prop :=
| L_keyword w k : In k reserved_words -> same_letters w k -> lexeme w (Some (TKw k))
| L_user w : same_letters w "u!" -> lexeme w (Some (TKw "u!"))
| L_any w : any_variable w -> lexeme w (Some (TAnyVar w))
| L_identifier w : identifier w -> lexeme w (Some (TId w))
| L_number w : number_text w -> lexeme w (Some (TNum w))
| L_negative w : number_text w -> lexeme ("-" ++ w) (Some (TNum ("-" ++ w)))
| L_symbol w : In w symbols -> lexeme w (Some (TSym w))
| L_newline : lexeme (String "010" "") (Some TNl)
| L_return_newline : lexeme (String "013" (String "010" "")) (Some TNl)
| L_blanks w : w <> "" -> Forall (fun c => In c [" "; "009"; "013"]%char) (chars w) -> lexeme w None
| L_line_comment w : Forall (fun c => c <> "010" /\ c <> "013")%char (chars w) -> lexeme ("//" ++ w) None
| L_comment c w : c <> "*"%char -> stars w -> lexeme ("/*" ++ String c (w ++ "*/")) None
| L_star_comment v c w :
    v <> "" -> stars v -> c <> "*"%char -> c <> "/"%char -> stars w ->
    lexeme ("/*" ++ v ++ String c (w ++ "*/")) None.

(** The tokens of a text: the longest match is taken; a character where no rule
    matches is passed over. *)
Inductive tokens : string -> list tok -> Prop :=
| T_end : tokens "" []
| T_match p r t l :
    lexeme p t ->
    (forall q s u, p ++ r = q ++ s -> lexeme q u -> (String.length q <= String.length p)%nat) ->
    tokens r l ->
    tokens (p ++ r) match t with Some x => x :: l | None => l end
| T_skip c r l :
    (forall q s u, String c r = q ++ s -> ~ lexeme q u) ->
    tokens r l ->
    tokens (String c r) l.

(** * The grammar, with meanings *)

Local Open Scope list_scope.

(** A question mark makes the type nullable (1), without one it is required (2). *)
Definition mark (n : Z) (w : list tok) : Prop := (n = 1%Z /\ w = [TSym "?"]) \/ (n = 2%Z /\ w = []).

Definition simple_names : list (string * prim) :=
  [("boolean", PrimBool); ("i8", PrimI8); ("i16", PrimI16); ("i32", PrimI32); ("i64", PrimI64);
   ("fp32", PrimFp32); ("fp64", PrimFp64); ("string", PrimString); ("binary", PrimBinary);
   ("timestamp", PrimTimestamp); ("timestamp_tz", PrimTimestampTz); ("date", PrimDate);
   ("time", PrimTime); ("interval_year", PrimIntervalYear); ("uuid", PrimUUID)].

Definition single_names : list (string * singlek) :=
  [("fixedchar", SFixed FxChar); ("varchar", SFixed FxVarChar); ("fixedbinary", SFixed FxBinary);
   ("precision_time", SPrecTime); ("precision_timestamp", SPrecTs);
   ("precision_timestamp_tz", SPrecTsTz); ("interval_day", SIntervalDay)].

Definition operators : list (tok * binop) :=
  [(TSym "+", OpPlus); (TSym "-", OpMinus); (TSym "*", OpMultiply); (TSym "/", OpDivide);
   (TSym "<", OpLT); (TSym "<=", OpLTE); (TSym ">", OpGT); (TSym ">=", OpGTE);
   (TSym "=", OpEQ); (TSym "!=", OpNEQ); (TKw "and", OpAnd); (TKw "or", OpOr)].

(** A number parameter: an integer, kept in 32 bits, or a variable. *)
Inductive numeric : list tok -> iparam -> Prop :=
| N_literal w z : int_text w z -> in_int 64 z -> numeric [TNum w] (IConc (wrap 32 z))
| N_name s : numeric [TId s] (IVar s).

(** What an expression can be: a type or an expression over integers. *)
Inductive item := AType (f : fdt) | AExpr (d : dexpr).

Inductive
  (** phrases of the grammar that are types *)
  type_phrase : list tok -> fdt -> Prop :=
| P_simple k p n q : In (k, p) simple_names -> mark n q -> type_phrase (TKw k :: q) (FPrim p n 0)
| P_single k s n q w i : In (k, s) single_names -> mark n q -> numeric w i ->
    type_phrase ([TKw k] ++ q ++ [TSym "<"] ++ w ++ [TSym ">"]) (FSingle s n 0 i)
| P_decimal n q w1 i w2 j : mark n q -> numeric w1 i -> numeric w2 j ->
    type_phrase ([TKw "decimal"] ++ q ++ [TSym "<"] ++ w1 ++ [TSym ","] ++ w2 ++ [TSym ">"]) (FDecimal n 0 i j)
| P_struct n q w fs : mark n q -> type_list w fs ->
    type_phrase ([TKw "struct"] ++ q ++ [TSym "<"] ++ w ++ [TSym ">"]) (FStruct n 0 fs)
| P_list n q w f : mark n q -> phrase 0 w (AType f) ->
    type_phrase ([TKw "list"] ++ q ++ [TSym "<"] ++ w ++ [TSym ">"]) (FList n 0 f)
| P_map n q w1 f w2 g : mark n q -> phrase 0 w1 (AType f) -> phrase 0 w2 (AType g) ->
    type_phrase ([TKw "map"] ++ q ++ [TSym "<"] ++ w1 ++ [TSym ","] ++ w2 ++ [TSym ">"]) (FMap n 0 f g)
| P_func n q w x v g : mark n q -> phrase 0 w x -> phrase 0 v (AType g) ->
    type_phrase ([TKw "func"] ++ q ++ [TSym "<"] ++ w ++ [TSym "->"] ++ v ++ [TSym ">"])
      (FFunc n match x with AType f => [f] | AExpr _ => [] end g)
| P_funcs n q w fs v g : mark n q -> type_list w fs -> (2 <= length fs)%nat -> phrase 0 v (AType g) ->
    type_phrase ([TKw "func"] ++ q ++ [TSym "<"; TSym "("] ++ w ++ [TSym ")"; TSym "->"] ++ v ++ [TSym ">"])
      (FFunc n fs g)
| P_user n q s : mark n q -> type_phrase ([TKw "u!"; TId s] ++ q) (FUser n 0 [] s)
| P_user_with n q s w ps : mark n q -> user_list w ps ->
    type_phrase ([TKw "u!"; TId s] ++ q ++ [TSym "<"] ++ w ++ [TSym ">"]) (FUser n 0 ps s)
| P_any n q : mark n q -> type_phrase (TKw "any" :: q) (FAny "any" 0 n)
| P_any_var n q s : mark n q -> type_phrase (TAnyVar s :: q) (FAny s 0 n)

with
  (** expressions, by the level they can stand at: 0 anywhere; the operators need at
      most 4, the conditional with a question mark at most 1 *)
  phrase : nat -> list tok -> item -> Prop :=
| E_type p w f : type_phrase w f -> phrase p w (AType f)
| E_paren p w x : phrase 0 w x -> phrase p ([TSym "("] ++ w ++ [TSym ")"]) x
| E_literal p w z : int_text w z -> in_int 64 z -> phrase p [TNum w] (AExpr (DNum z))
| E_name p s n q : mark n q -> phrase p (TId s :: q) (AExpr (DName s))
| E_call0 p s v : uncapitalised v -> same_letters s v ->
    phrase p [TId s; TSym "("; TSym ")"] (AExpr (DCall v []))
| E_call p s v w ds : uncapitalised v -> same_letters s v -> expr_list w ds ->
    phrase p ([TId s; TSym "("] ++ w ++ [TSym ")"]) (AExpr (DCall v ds))
| E_if p w1 c w2 t w3 e :
    phrase 0 w1 (AExpr c) -> phrase 0 w2 (AExpr t) -> phrase 3 w3 (AExpr e) ->
    phrase p ([TKw "if"] ++ w1 ++ [TKw "then"] ++ w2 ++ [TKw "else"] ++ w3) (AExpr (DIf false c t e))
| E_not p w d : phrase 2 w (AExpr d) -> phrase p (TSym "!" :: w) (AExpr (DNot d))
| E_binary p op o w1 l w2 r : (p <= 4)%nat -> In (op, o) operators ->
    phrase p w1 (AExpr l) -> phrase 5 w2 (AExpr r) ->
    phrase p (w1 ++ [op] ++ w2) (AExpr (DBin o l r))
| E_ternary p w1 c w2 t w3 e : (p <= 1)%nat ->
    phrase p w1 (AExpr c) -> phrase 0 w2 (AExpr t) -> phrase 2 w3 (AExpr e) ->
    phrase p (w1 ++ [TSym "?"] ++ w2 ++ [TSym ":"] ++ w3) (AExpr (DIf true c t e))
| E_program p w ds v f m : program w ds -> type_phrase v f ->
    phrase p (w ++ v ++ repeat TNl m) (AType (FDeriv ds f))

with
  (** one or more, with commas between them *)
  type_list : list tok -> list fdt -> Prop :=
| TL_one w f : phrase 0 w (AType f) -> type_list w [f]
| TL_more w f v fs : phrase 0 w (AType f) -> type_list v fs -> type_list (w ++ [TSym ","] ++ v) (f :: fs)
with expr_list : list tok -> list dexpr -> Prop :=
| EL_one w d : phrase 0 w (AExpr d) -> expr_list w [d]
| EL_more w d v ds : phrase 0 w (AExpr d) -> expr_list v ds -> expr_list (w ++ [TSym ","] ++ v) (d :: ds)
with user_list : list tok -> list udtp -> Prop :=
| UL_one w p : user_phrase w p -> user_list w [p]
| UL_more w p v ps : user_phrase w p -> user_list v ps -> user_list (w ++ [TSym ","] ++ v) (p :: ps)
with
  (** parameters of user-defined types: types, integers kept in 32 bits, names *)
  user_phrase : list tok -> udtp -> Prop :=
| U_type w f : phrase 0 w (AType f) -> user_phrase w (UData f)
| U_int w z : phrase 0 w (AExpr (DNum z)) -> user_phrase w (UInt (wrap 32 z))
| U_name w s : phrase 0 w (AExpr (DName s)) -> user_phrase w (UStr s)
with
  (** one or more assignments, each ended by at least one line end *)
  program : list tok -> list (string * dexpr) -> Prop :=
| G_one x w d m : phrase 0 w (AExpr d) -> (1 <= m)%nat ->
    program ([TId x; TSym "="] ++ w ++ repeat TNl m) [(x, d)]
| G_more x w d m v ds : phrase 0 w (AExpr d) -> (1 <= m)%nat -> program v ds ->
    program ([TId x; TSym "="] ++ w ++ repeat TNl m ++ v) ((x, d) :: ds).

(** The text says the type [f]. *)
Definition text_says (text : string) (f : fdt) : Prop :=
  exists l, tokens text l /\ phrase 0 l (AType f).

(** * Texts that differ in letter case only *)

(** The same integer parameter, expression and type definition, names in any case. *)
Inductive same_param : iparam -> iparam -> Prop :=
| SP_number z : same_param (IConc z) (IConc z)
| SP_name s s' : same_letters s s' -> same_param (IVar s) (IVar s').

Inductive same_expr : dexpr -> dexpr -> Prop :=
| SE_number z : same_expr (DNum z) (DNum z)
| SE_name s s' : same_letters s s' -> same_expr (DName s) (DName s')
| SE_binary o l l' r r' : same_expr l l' -> same_expr r r' -> same_expr (DBin o l r) (DBin o l' r')
| SE_if b c c' t t' e e' : same_expr c c' -> same_expr t t' -> same_expr e e' ->
    same_expr (DIf b c t e) (DIf b c' t' e')
| SE_not d d' : same_expr d d' -> same_expr (DNot d) (DNot d')
| SE_call f l l' : Forall2 same_expr l l' -> same_expr (DCall f l) (DCall f l').

Inductive same_def : fdt -> fdt -> Prop :=
| SD_prim p n v : same_def (FPrim p n v) (FPrim p n v)
| SD_single k n v i i' : same_param i i' -> same_def (FSingle k n v i) (FSingle k n v i')
| SD_decimal n v i i' j j' : same_param i i' -> same_param j j' -> same_def (FDecimal n v i j) (FDecimal n v i' j')
| SD_any s s' v n : same_letters s s' -> same_def (FAny s v n) (FAny s' v n)
| SD_list n v f f' : same_def f f' -> same_def (FList n v f) (FList n v f')
| SD_map n v f f' g g' : same_def f f' -> same_def g g' -> same_def (FMap n v f g) (FMap n v f' g')
| SD_struct n v l l' : Forall2 same_def l l' -> same_def (FStruct n v l) (FStruct n v l')
| SD_func n l l' f f' : Forall2 same_def l l' -> same_def f f' -> same_def (FFunc n l f) (FFunc n l' f')
| SD_user n v l l' s s' : Forall2 same_user l l' -> same_letters s s' -> same_def (FUser n v l s) (FUser n v l' s')
| SD_program l l' f f' :
    Forall2 (fun a b => same_letters (fst a) (fst b) /\ same_expr (snd a) (snd b)) l l' -> same_def f f' ->
    same_def (FDeriv l f) (FDeriv l' f')
with same_user : udtp -> udtp -> Prop :=
| SU_type f f' : same_def f f' -> same_user (UData f) (UData f')
| SU_int z : same_user (UInt z) (UInt z)
| SU_name s s' : same_letters s s' -> same_user (UStr s) (UStr s').
