(** * Specification: how a line of a structured slugs file is read

    Independent of the model of the parser.  Follows /repo/tools/StructuredSlugsParser/grammar.wi and
    the expressions for words and numbers in compiler.py. *)

From Coq Require Import String Ascii List Bool Arith NArith ZArith.
From Verif Require Import FormulaSpec StructuredSpec.
Import ListNotations.
Local Open Scope string_scope.

(** ** Tokens *)

(** A token has a kind, and a text if its kind is boolID, numID or numeral (otherwise the text is
    empty). *)
Definition token : Type := string * string.
Definition sym (k : string) : token := (k, "").

(** White space of Python. *)
Definition isSpace (a : ascii) : bool :=
  let n := nat_of_ascii a in (Nat.leb 9 n && Nat.leb n 13) || (Nat.leb 28 n && Nat.leb n 32).
Definition isWordChar (a : ascii) : bool := isWordStart a || isDigit a.
Definition keyWords : list string := ["X"; "F"; "G"; "U"; "W"; "FALSE"; "TRUE"; "next"; "LEASTSIGNIFICANTBITOVERWRITES"].

(** The first character of a string, if there is one, is not in [P]. *)
Definition endsBefore (P : ascii -> bool) (s : string) : Prop :=
  match s with EmptyString => True | String a _ => P a = false end.

(** The token for a word; [bools] are the names that stand for Boolean values. *)
Inductive word_token (bools : list string) (w : string) : token -> Prop :=
| wt_key : In w keyWords -> word_token bools w (sym w)
| wt_bool : ~ In w keyWords -> In w bools -> word_token bools w ("boolID", w)
| wt_num : ~ In w keyWords -> ~ In w bools -> word_token bools w ("numID", w).

(** The tokens of a line: the longest words, the longest numbers and all other characters, without
    the white space between them. *)
Inductive lexes (bools : list string) : string -> list token -> Prop :=
| lex_end : lexes bools "" []
| lex_space a s ts : isSpace a = true -> lexes bools s ts -> lexes bools (String a s) ts
| lex_word w s t ts : isWordToken w = true -> endsBefore isWordChar s -> word_token bools w t ->
    lexes bools s ts -> lexes bools (w ++ s) (t :: ts)
| lex_number w s ts : w <> "" -> allDigits w = true -> endsBefore isDigit s ->
    lexes bools s ts -> lexes bools (w ++ s) (("numeral", w) :: ts)
| lex_symbol a s ts : isSpace a = false -> isWordStart a = false -> isDigit a = false ->
    lexes bools s ts -> lexes bools (String a s) (sym (String a "") :: ts).

(** ** Numbers

    Levels: 0 - single numbers, 1 - overwriting, 2 - products, 3 - sums. *)
Inductive number : nat -> list token -> num -> Prop :=
| n_id x : number 0 [("numID", x)] (NumID x)
| n_numeral w : number 0 [("numeral", w)] (Numeral (Z.of_N (decimal 0 w)))
| n_brackets ts a : number 3 ts a -> number 0 (sym "(" :: ts ++ [sym ")"]) (NumBrackets a)
| n_up l ts a : l < 3 -> number l ts a -> number (S l) ts a
| n_over ts us a b : number 0 ts a -> number 0 us b -> number 1 (ts ++ sym "LEASTSIGNIFICANTBITOVERWRITES" :: us) (Overwrite a b)
| n_mul ts us a b : number 1 ts a -> number 1 us b -> number 2 (ts ++ sym "*" :: us) (Mul a b)
| n_add ts us a b : number 2 ts a -> number 3 us b -> number 3 (ts ++ sym "+" :: us) (Add a b).

(** ** Formulas *)

Definition syms (ks : list string) : list token := map sym ks.
Inductive comparing : list token -> comparator -> Prop :=
| c_gt : comparing (syms [">"]) CGt
| c_ge : comparing (syms [">"; "="]) CGe
| c_lt : comparing (syms ["<"]) CLt
| c_le : comparing (syms ["<"; "="]) CLe
| c_eq : comparing (syms ["="]) CEq
| c_ne : comparing (syms ["!"; "="]) CNe.
Inductive prefixed : list token -> unop -> Prop :=
| p_not ts : In ts [syms ["!"]; syms ["~"]] -> prefixed ts ONot
| p_next ts : In ts [syms ["("; ")"]; syms ["next"]; syms ["X"]] -> prefixed ts ONext
| p_finally ts : In ts [syms ["<"; ">"]; syms ["F"]] -> prefixed ts OFinally
| p_globally ts : In ts [syms ["["; "]"]; syms ["G"]] -> prefixed ts OGlobally.

(** Operators with two operands, in the order of their precedence: [infixed l ts c] says that the
    operator [ts] has level l and that it makes formula [c f g] of f and g. *)
Inductive infixed : nat -> list token -> (sfml -> sfml -> sfml) -> Prop :=
| i_until : infixed 2 (syms ["U"]) (STemporal false)
| i_weak : infixed 2 (syms ["W"]) (STemporal true)
| i_and ts : In ts [syms ["/"; "\"]; syms ["&"]; syms ["&"; "&"]] -> infixed 3 ts SAnd
| i_or ts : In ts [syms ["\"; "/"]; syms ["|"]; syms ["|"; "|"]] -> infixed 4 ts SOr
| i_xor : infixed 5 (syms ["^"]) SXor
| i_imp ts : In ts [syms ["-"; "-"; ">"]; syms ["-"; ">"]] -> infixed 6 ts SImp
| i_biimp ts : In ts [syms ["<"; "-"; "-"; ">"]; syms ["<"; "-"; ">"]] -> infixed 7 ts SBiimp.

(** Levels: 0 - atoms and brackets, 1 - unary operators, 2 - U and W, 3 - conjunctions,
    4 - disjunctions, 5 - exclusive disjunctions, 6 - implications, 7 - equivalences; operators of the
    same level associate to the left. *)
Inductive formula : nat -> list token -> sfml -> Prop :=
| f_true : formula 0 [sym "TRUE"] STrue
| f_false : formula 0 [sym "FALSE"] SFalse
| f_bool x : formula 0 [("boolID", x)] (SAssign x)
| f_round ts f : formula 7 ts f -> formula 0 (sym "(" :: ts ++ [sym ")"]) (SBrackets f)
| f_square ts f : formula 7 ts f -> formula 0 (sym "[" :: ts ++ [sym "]"]) (SBrackets f)
| f_compare ts os us a c b : number 3 ts a -> comparing os c -> number 3 us b -> formula 0 (ts ++ os ++ us) (SCalc a c b)
| f_unary os ts o f : prefixed os o -> formula 1 ts f -> formula 1 (os ++ ts) (SUnary o f)
| f_up l ts f : l < 7 -> formula l ts f -> formula (S l) ts f
| f_binary l os c ts us f g : infixed (S l) os c -> formula (S l) ts f -> formula l us g ->
    formula (S l) (ts ++ os ++ us) (c f g).

(** A line is read as a formula. *)
Definition reads (bools : list string) (line : string) (f : sfml) : Prop :=
  exists ts, lexes bools line ts /\ formula 7 ts f.
