(** * Model: reading a line of a structured slugs file

    tokenize in tools/StructuredSlugsParser/compiler.py and _parse in Parser.py.  Not modelled: the
    attempts of the parser to repair a wrong line; they only serve to list several errors, and a
    ParseErrors exception follows.  Characters have codes below 128. *)

From Coq Require Import String Ascii List Bool Arith NArith ZArith.
From Verif Require Import FormulaSpec StructuredSpec StructGrammar Structured StructTables.
Import ListNotations.
Local Open Scope string_scope.

(** ** compiler.py: tokenize, lines 29-63 *)

(** The longest prefix of characters in [P]. *)
Fixpoint takeWhile (P : ascii -> bool) (s : string) : string :=
  match s with
  | EmptyString => EmptyString
  | String a s => if P a then String a (takeWhile P s) else EmptyString
  end.
(** Lines 38-48.  The names of tokens without text are also their kinds. *)
Definition wordToken (booleanAPs : list string) (currentSymbol : string) : token :=
  if existsb (String.eqb currentSymbol) ["X"; "F"; "G"; "U"; "W"; "FALSE"; "TRUE"; "next"; "LEASTSIGNIFICANTBITOVERWRITES"]
  then (currentSymbol, "")
  else if existsb (String.eqb currentSymbol) booleanAPs then ("boolID", currentSymbol) else ("numID", currentSymbol).
(** [skip]: the number of characters that the last match still covers. *)
Fixpoint tokenizeFrom (booleanAPs : list string) (skip : nat) (s : string) : list token :=
  match s with
  | EmptyString => []
  | String a s =>
      match skip with
      | S k => tokenizeFrom booleanAPs k s
      | O =>
          if isSpace a then tokenizeFrom booleanAPs 0 s
          else if isWordStart a then
            let w := takeWhile (fun b => isWordStart b || isDigit b) s in
            wordToken booleanAPs (String a w) :: tokenizeFrom booleanAPs (String.length w) s
          else if isDigit a then
            let w := takeWhile isDigit s in
            ("numeral", String a w) :: tokenizeFrom booleanAPs (String.length w) s
          else (String a "", "") :: tokenizeFrom booleanAPs 0 s
      end
  end.
Definition tokenize (booleanAPs : list string) (s : string) : list token := tokenizeFrom booleanAPs 0 s.

(** ** Parser.py *)

(** Trees are tuples: tokens, or a nonterminal with subtrees. *)
Inductive ptree : Type :=
| Leaf (t : token)
| Node (X : string) (children : list ptree).

Definition entry {A} (table : list (list (string * A))) (state : nat) (token : string) : option A :=
  match find (fun e => String.eqb (fst e) token) (nth state table []) with
  | Some e => Some (snd e)
  | None => None
  end.

(** _parse, lines 1121-1160.  The stack has the latest element first.  [Parsed]: the stack when the halting
    state is reached; [ParseError]: no entry for the token, or the end of the input; [Crash]: an
    IndexError or a KeyError; [Fuel]: the given number of steps was not enough. *)
Inductive outcome : Type :=
| Parsed (stack : list (nat * ptree))
| ParseError
| Crash
| Fuel.
Fixpoint parseLoop (fuel : nat) (input : list token) (stack : list (nat * ptree)) (state : nat) : outcome :=
  if Nat.eqb state haltingState then Parsed stack
  else
    match fuel with
    | O => Fuel
    | S fuel =>
        match input with
        | [] => ParseError
        | lookahead :: rest =>
            match entry shiftTable state (fst lookahead) with
            | Some next => parseLoop fuel rest ((state, Leaf lookahead) :: stack) next
            | None =>
                match entry reduceTable state (fst lookahead) with
                | Some (X, n) =>
                    (* no entry has n = 0, so that stack[-n] is an element of the stack *)
                    match nth_error stack (n - 1) with
                    | Some (state, _) =>
                        let tree := Node X (rev (map snd (firstn n stack))) in
                        match entry gotoTable state X with
                        | Some next => parseLoop fuel input ((state, tree) :: skipn n stack) next
                        | None => Crash
                        end
                    | None => Crash
                    end
                | None => ParseError
                end
            end
        end
    end.
(** parse, lines 1182-1198 and 1251-1254.  24 steps for every token are enough (C80_total). *)
Definition parse (input : list token) : outcome :=
  parseLoop (24 * S (length input)) (input ++ [(EOF, "")]) [] 0.

(** ** Formulas of parse trees

    clean_tree, lines 68-142 of compiler.py: productions that only rename a nonterminal are removed.  The names
    of the remaining ones are those that the functions modelled in Structured.v distinguish.  [None]:
    for trees that do not belong to the grammar. *)
Fixpoint numOf (t : ptree) : option num :=
  match t with
  | Leaf (k, x) =>
      if String.eqb k "numID" then Some (NumID x)
      else if String.eqb k "numeral" then Some (Numeral (Z.of_N (decimal 0 x))) (* int(tree[1]) *)
      else None
  | Node X [a] =>
      if existsb (String.eqb X) ["NumberExpression"; "MultiplicativeNumber"; "LeastSignificantBitOverwriteExpression"; "AtomicNumberExpression"]
      then numOf a else None
  | Node X [a; o; b] =>
      if String.eqb X "NumberBrackets" then option_map NumBrackets (numOf o)
      else
        match numOf a, numOf b, o with
        | Some a, Some b, Node Op _ =>
            if String.eqb X "NumberExpression" && String.eqb Op "AdditionOperator" then Some (Add a b)
            else if String.eqb X "MultiplicativeNumber" then Some (Mul a b)
            else if String.eqb X "LeastSignificantBitOverwriteExpression" then Some (Overwrite a b)
            else None
        | _, _, _ => None
        end
  | Node _ _ => None
  end.
(** tree[2][1][0] in lines 349-380. *)
Definition comparatorOf (t : ptree) : option comparator :=
  match t with
  | Node "NumberComparisonOperator" [Node C _] =>
      if String.eqb C "GreaterOperator" then Some CGt
      else if String.eqb C "GreaterEqualOperator" then Some CGe
      else if String.eqb C "SmallerOperator" then Some CLt
      else if String.eqb C "SmallerEqualOperator" then Some CLe
      else if String.eqb C "EqualOperator" then Some CEq
      else if String.eqb C "UnequalOperator" then Some CNe
      else None
  | _ => None
  end.
(** tree[1][0] in lines 416-420, behind UnaryTemporalOperator. *)
Definition unopOf (t : ptree) : option unop :=
  match t with
  | Node "UnaryTemporalOperator" [Node C _] =>
      if String.eqb C "NotOperator" then Some ONot
      else if String.eqb C "NextOperator" then Some ONext
      else if String.eqb C "FinallyOperator" then Some OFinally
      else if String.eqb C "GloballyOperator" then Some OGlobally
      else None
  | _ => None
  end.
Definition weakOf (t : ptree) : option bool :=
  match t with
  | Node "BinaryTemporalOperator" [Node C _] =>
      if String.eqb C "UntilOperator" then Some false else if String.eqb C "WeakUntilOperator" then Some true else None
  | _ => None
  end.
Fixpoint fmlOf (t : ptree) : option sfml :=
  match t with
  | Leaf (k, x) =>
      if String.eqb k "TRUE" then Some STrue else if String.eqb k "FALSE" then Some SFalse else None
  | Node X [a] =>
      if String.eqb X "Assignment" then
        match a with Leaf (_, x) => Some (SAssign x) | _ => None end
      else if existsb (String.eqb X) ["Formula"; "Biimplication"; "Implication"; "Xor"; "Disjunction"; "Conjunction";
                                 "BinaryTemporalFormula"; "UnaryFormula"; "AtomicFormula"; "BooleanAtomicFormula"]
      then fmlOf a else None
  | Node X [o; a] =>
      match unopOf o, fmlOf a with
      | Some o, Some a => if String.eqb X "UnaryFormula" then Some (SUnary o a) else None
      | _, _ => None
      end
  | Node X [a; o; b] =>
      if String.eqb X "Brackets" then option_map SBrackets (fmlOf o)
      else if String.eqb X "CalculationSubformula" then
        match numOf a, comparatorOf o, numOf b with
        | Some a, Some c, Some b => Some (SCalc a c b)
        | _, _, _ => None
        end
      else
        match fmlOf a, fmlOf b with
        | Some f, Some g =>
            if String.eqb X "Biimplication" then Some (SBiimp f g)
            else if String.eqb X "Implication" then Some (SImp f g)
            else if String.eqb X "Xor" then Some (SXor f g)
            else if String.eqb X "Disjunction" then Some (SOr f g)
            else if String.eqb X "Conjunction" then Some (SAnd f g)
            else if String.eqb X "BinaryTemporalFormula" then option_map (fun w => STemporal w f g) (weakOf o)
            else None
        | _, _ => None
        end
  | Node _ _ => None
  end.

(** parseLTL, lines 203-225: the formula; an exception of the parser is [None].  parse returns stack[0][1], which is the
    oldest element. *)
Definition parseTree (input : list token) : option ptree :=
  match parse input with
  | Parsed stack => match rev stack with (_, t) :: _ => Some t | [] => None end
  | _ => None
  end.
Definition parseLTL (booleanAPs : list string) (line : string) : option sfml :=
  match parseTree (tokenize booleanAPs line) with
  | Some t => fmlOf t
  | None => None
  end.
