(** * Model: tools/translateFromRatsyFormatToSlugsFormat.py and translateFromLTLMopLTLFormatToSlugsFormat.py

    The first 198 lines of the two scripts are the same; line numbers without a file name refer to the
    script for RATSY.  Both are Python 2 scripts: str.strip and isspace know the white space of C.  The
    parser is the function _parse in tools/parser.py with the tables in LtlTables.v; its attempts to
    repair a wrong text are not modelled, as a ParseErrors exception follows.  The result is the text
    that a script prints; what is printed before an exception is not modelled. *)

From Coq Require Import String Ascii List Bool Arith.
From Verif Require Import FormulaSpec LtlSpec Parser Structured StructFile StructParse LtlTables.
Import ListNotations.
Local Open Scope string_scope.

(** ** tokenize, lines 22-62 *)

(** [skip]: the number of characters that the last match still covers. *)
Fixpoint tokenizeFrom (skip : nat) (s : string) : list token :=
  match s with
  | EmptyString => []
  | String a rest =>
      match skip with
      | S k => tokenizeFrom k rest
      | O =>
          if isWs a then tokenizeFrom 0 rest
          else if String.prefix "FALSE" s then ("FALSE", "") :: tokenizeFrom 4 rest
          else if String.prefix "TRUE" s then ("TRUE", "") :: tokenizeFrom 3 rest
          else if String.prefix "next" s then ("next", "") :: tokenizeFrom 3 rest
          else if isIdChar a then
            match takeWhile isIdChar rest with
            | EmptyString =>
                (if existsb (String.eqb (String a "")) ["X"; "F"; "G"; "U"; "W"; "0"; "1"] then (String a "", "") else ("id", String a ""))
                :: tokenizeFrom 0 rest
            | w => ("id", String a w) :: tokenizeFrom (String.length w) rest
            end
          else (String a "", "") :: tokenizeFrom 0 rest
      end
  end.
Definition tokenize (s : string) : list token := tokenizeFrom 0 s.

(** ** tools/parser.py: _parse, lines 751-790 (as in StructParse.v, with other tables) *)
Fixpoint parseLoop (fuel : nat) (input : list token) (stack : list (nat * ptree)) (state : nat) : outcome :=
  if Nat.eqb state haltingState then Parsed stack
  else
    match fuel with
    | O => Fuel
    | S fuel =>
        match input with
        | [] => ParseError
        | lookahead :: rest =>
            match entry shiftTable state (fst lookahead) with
            | Some next => parseLoop fuel rest ((state, Leaf lookahead) :: stack) next
            | None =>
                match entry reduceTable state (fst lookahead) with
                | Some (X, n) =>
                    (* no entry has n = 0, so that stack[-n] is an element of the stack *)
                    match nth_error stack (n - 1) with
                    | Some (state, _) =>
                        let tree := Node X (rev (map snd (firstn n stack))) in
                        match entry gotoTable state X with
                        | Some next => parseLoop fuel input ((state, tree) :: skipn n stack) next
                        | None => Crash
                        end
                    | None => Crash
                    end
                | None => ParseError
                end
            end
        end
    end.
(** parse.  24 steps for every token are enough (C87_parser_total). *)
Definition parse (input : list token) : outcome :=
  parseLoop (24 * S (length input)) (input ++ [(EOF, "")]) [] 0.
Definition parseTree (input : list token) : option ptree :=
  match parse input with
  | Parsed stack => match rev stack with (_, t) :: _ => Some t | [] => None end
  | _ => None
  end.

(** ** Trees: tuples or lists that begin with a name.  The text of an identifier, which clean_tree puts
    into the node Assignment, stays a token here. *)
Inductive ltree : Type :=
| TLeaf (t : token)
| TNode (X : string) (children : list ltree).
(** tree[0] *)
Definition headOf (t : ltree) : string := match t with TLeaf (k, _) => k | TNode X _ => X end.
Definition isIn (X : string) (l : list string) : bool := existsb (String.eqb X) l.

(** clean_tree, lines 68-123; None: an exception.  The order of the tests is the one of the script for
    the nonterminals of the grammar. *)
Fixpoint clean_tree (t : ptree) : option ltree :=
  match t with
  | Leaf t => Some (TLeaf t)
  | Node X cs =>
      if String.eqb X "Brackets" then match cs with _ :: b :: _ => clean_tree b | _ => None end
      else if String.eqb X "Assignment" then
        Some (TNode X (map (fun c => match c with Leaf t => TLeaf t | Node Y _ => TLeaf (Y, "") end) cs))
      else if isIn X ["AtomicFormula"; "BinaryTemporalOperator"; "UnaryTemporalOperator"] then
        match cs with a :: _ => clean_tree a | _ => None end
      else if isIn X ["Implication"; "Conjunction"; "Biimplication"; "Disjunction"; "Xor"] then
        match cs with
        | [a] => clean_tree a
        | a :: _ :: b :: _ =>
            match clean_tree a, clean_tree b with Some a, Some b => Some (TNode X [a; b]) | _, _ => None end
        | _ => None
        end
      else if String.eqb X "BinaryTemporalFormula" then
        match cs with
        | [a] => clean_tree a
        | a :: o :: b :: _ =>
            match clean_tree a, clean_tree o, clean_tree b with
            | Some a, Some o, Some b => Some (TNode X [a; o; b])
            | _, _, _ => None
            end
        | _ => None
        end
      else if String.eqb X "UnaryFormula" then
        match cs with
        | [a] => clean_tree a
        | o :: a :: _ => match clean_tree o, clean_tree a with Some o, Some a => Some (TNode X [o; a]) | _, _ => None end
        | _ => None
        end
      else
        option_map (TNode X)
          ((fix cleanAll (cs : list ptree) : option (list ltree) :=
              match cs with
              | [] => Some []
              | c :: cs => match clean_tree c, cleanAll cs with Some c, Some cs => Some (c :: cs) | _, _ => None end
              end) cs)
  end.

(** flatten_as_much_as_possible, lines 125-168. *)
Fixpoint flatten (t : ltree) : ltree :=
  match t with
  | TLeaf _ => t
  | TNode X cs =>
      let cs := map flatten cs in
      if isIn X ["Conjunction"; "Disjunction"; "Xor"] then
        TNode X (flat_map (fun a => match a with TNode Y ds => if String.eqb Y X then ds else [a] | TLeaf _ => [a] end) cs)
      else TNode X cs
  end.

(** parseLTL, lines 175-198. *)
Definition parseLTL (text : string) : pyres ltree :=
  match parseTree (tokenize text) with
  | Some t => match clean_tree t with Some t => Ret (flatten t) | None => Raise end
  | None => Raise
  end.

Section Formulas.
  (** The case Assignment of parseSimpleFormula, in which the scripts differ: the elements of the tree
      after its name. *)
  Variable assignment : list ltree -> bool -> pyres (list string).

  (** parseSimpleFormula, lines 272-316 (LTLMop: lines 264-305). *)
  Fixpoint parseSimpleFormula (tree : ltree) (isPrimed : bool) : pyres (list string) :=
    match tree with
    | TLeaf (k, _) => if String.eqb k "TRUE" then Ret ["1"] else if String.eqb k "FALSE" then Ret ["0"] else Raise
    | TNode X cs =>
        if String.eqb X "Biimplication" then
          match cs with
          | a :: b :: _ => pybind (parseSimpleFormula a isPrimed) (fun b1 => pybind (parseSimpleFormula b isPrimed) (fun b2 =>
              Ret (["|"; "&"; "!"] ++ b1 ++ ["!"] ++ b2 ++ ["&"] ++ b1 ++ b2)%list))
          | _ => Raise
          end
        else if String.eqb X "Implication" then
          match cs with
          | a :: b :: _ => pybind (parseSimpleFormula a isPrimed) (fun b1 => pybind (parseSimpleFormula b isPrimed) (fun b2 =>
              Ret (["|"; "!"] ++ b1 ++ b2)%list))
          | _ => Raise
          end
        else if isIn X ["Conjunction"; "Disjunction"] then
          match cs with
          | [] => Raise
          | a :: cs =>
              pybind (parseSimpleFormula a isPrimed) (fun ret =>
                (fix others (cs : list ltree) (ret : list string) : pyres (list string) :=
                   match cs with
                   | [] => Ret ret
                   | a :: cs => pybind (parseSimpleFormula a isPrimed) (fun b =>
                       others cs ((if String.eqb X "Conjunction" then "&" else "|") :: ret ++ b)%list)
                   end) cs ret)
          end
        else if String.eqb X "UnaryFormula" then
          match cs with
          | o :: f :: _ =>
              if String.eqb (headOf o) "NotOperator" then pybind (parseSimpleFormula f isPrimed) (fun b => Ret ("!" :: b))
              else if String.eqb (headOf o) "NextOperator" then (if isPrimed then Raise else parseSimpleFormula f true)
              else Raise
          | _ => Raise
          end
        else if String.eqb X "Assignment" then assignment cs isPrimed
        else Raise
    end.

  (** buildPropertySet, lines 319-359 (LTLMop: lines 308-337): the list to which a conjunct is added
      (0: initializationProperties, 1: safetyProperties, 2: livenessProperties), and what is added. *)
  Definition oneProperty (startWithNext : bool) (c : ltree) : pyres (nat * list string) :=
    let add n r := pybind r (fun b : list string => Ret (n, b)) in
    match c with
    | TNode "UnaryFormula" (o :: rest :: _) =>
        if negb (String.eqb (headOf o) "GloballyOperator") then add 0 (parseSimpleFormula c false)
        else
          match rest with
          | TNode "UnaryFormula" (o' :: f :: _) =>
              if negb (String.eqb (headOf o') "FinallyOperator") then add 1 (parseSimpleFormula rest false)
              else add 2 (parseSimpleFormula f startWithNext)
          | _ => add 1 (parseSimpleFormula rest false)
          end
    | _ => add 0 (parseSimpleFormula c false)
    end.
  Fixpoint pyMap {A B} (f : A -> pyres B) (l : list A) : pyres (list B) :=
    match l with
    | [] => Ret []
    | a :: l => pybind (f a) (fun b => pybind (pyMap f l) (fun bs => Ret (b :: bs)))
    end.
  Definition allProperties (startWithNext : bool) (trees : list ltree) : pyres (list (nat * list string)) :=
    pybind (pyMap (fun tree =>
      match tree with
      | TNode "Formula" (t :: _) =>
          pyMap (oneProperty startWithNext) (match t with TNode "Conjunction" cs => cs | _ => [t] end)
      | _ => Raise
      end) trees) (fun ps => Ret (concat ps)).
  (** buildPropertySet, lines 360-374 (LTLMop: lines 339-353): the printed lines. *)
  Definition linesOfKind (n : nat) (ps : list (nat * list string)) : list string :=
    map (fun p => String.concat " " (snd p)) (filter (fun p => Nat.eqb (fst p) n) ps).
  Definition buildPropertySet (properties : list ltree) (fileprefix : string) (startWithNext handleInit : bool) : pyres (list string) :=
    pybind (allProperties startWithNext properties) (fun ps =>
      Ret (if handleInit then ([("[" ++ fileprefix ++ "INIT]")%string] ++ linesOfKind 0 ps ++ [""])%list
           else ([("[" ++ fileprefix ++ "TRANS]")%string] ++ linesOfKind 1 ps ++ [""] ++
                 [("[" ++ fileprefix ++ "LIVENESS]")%string] ++ linesOfKind 2 ps ++ [""])%list)).
  (** The end of performConversion, lines 250-267 (LTLMop: lines 245-259). *)
  Definition printed (inputBits outputBits : list string) (assumptions guarantees : list ltree) : pyres string :=
    pybind (buildPropertySet assumptions "ENV_" false false) (fun l1 =>
    pybind (buildPropertySet assumptions "ENV_" false true) (fun l2 =>
    pybind (buildPropertySet guarantees "SYS_" true false) (fun l3 =>
    pybind (buildPropertySet guarantees "SYS_" true true) (fun l4 =>
      Ret (String.concat "" (map (fun l => l ++ String "010" "")
        (["[INPUT]"] ++ inputBits ++ [""; "[OUTPUT]"] ++ outputBits ++ [""] ++ l1 ++ l2 ++ l3 ++ l4)%list)))))).
End Formulas.

(** ** RATSY *)

(** parseSimpleFormula, lines 298-308. *)
Definition ratsyAssignment (cs : list ltree) (isPrimed : bool) : pyres (list string) :=
  match cs with
  | [TLeaf (_, x); _; v] =>
      let var := if isPrimed then x ++ "'" else x in
      if String.eqb (headOf v) "0" then Ret ["!"; var]
      else if String.eqb (headOf v) "1" then Ret [var] else Raise
  | _ => Raise
  end.

(** performConversion, lines 201-238; the modes are 1 to 8. *)
Definition ratsyHeaders : list string :=
  ["[INPUT_VARIABLES]"; "[OUTPUT_VARIABLES]"; "[ENV_INITIAL]"; "[SYS_INITIAL]"; "[ENV_TRANSITIONS]"; "[SYS_TRANSITIONS]"; "[ENV_FAIRNESS]"; "[SYS_FAIRNESS]"].
Fixpoint indexOf (x : string) (l : list string) : option nat :=
  match l with [] => None | y :: l => if String.eqb y x then Some 0 else option_map S (indexOf x l) end.
Fixpoint ratsyRead (mode : nat) (stringsOfType : nat -> string) (ls : list string) : pyres (nat -> string) :=
  match ls with
  | [] => Ret stringsOfType
  | l :: ls =>
      let line := trim l in
      if String.prefix "#" line then ratsyRead mode stringsOfType ls
      else if String.eqb line "" then ratsyRead mode stringsOfType ls
      else
        match indexOf line ratsyHeaders with
        | Some i => ratsyRead (S i) stringsOfType ls
        | None =>
            if String.prefix "[" line then Raise
            else if Nat.eqb mode 0 then Raise
            else ratsyRead mode (fun m => if Nat.eqb m mode then stringsOfType m ++ line else stringsOfType m) ls
        end
  end.
(** performConversion, lines 201-267. *)
Definition ratsyConversion (content : string) : pyres string :=
  pybind (ratsyRead 0 (fun _ => "") (getlines content)) (fun stringsOfType =>
    let entries m := map trim (splitChar ";" (stringsOfType m)) in
    let parsed := pyMap (fun a => parseLTL (a ++ ";")) in
    let nonempty := filter (fun a => negb (String.eqb a "")) in
    pybind (parsed (nonempty (entries 3 ++ entries 5 ++ entries 7)%list)) (fun assumptionProperties =>
    pybind (parsed (nonempty (entries 4 ++ entries 6 ++ entries 8)%list)) (fun guaranteeProperties =>
      printed ratsyAssignment (entries 1) (entries 2) assumptionProperties guaranteeProperties))).

(** ** LTLMop *)

(** LTLMop: parseSimpleFormula, lines 290-297. *)
Definition ltlmopAssignment (cs : list ltree) (isPrimed : bool) : pyres (list string) :=
  match cs with
  | TLeaf (_, String _ (String "." var)) :: _ => Ret [if isPrimed then var ++ "'" else var]
  | _ => Raise
  end.
(** LTLMop: performConversion, lines 202-218. *)
Fixpoint ltlmopRead (mode : nat) (assumptions guarantees : string) (ls : list string) : string * string :=
  match ls with
  | [] => (assumptions, guarantees)
  | l :: ls =>
      let line := trim l in
      if String.eqb line "LTLSPEC -- Assumptions" then ltlmopRead 1 assumptions guarantees ls
      else if String.eqb line "LTLSPEC -- Guarantees" then ltlmopRead 2 assumptions guarantees ls
      else if Nat.eqb mode 1 then ltlmopRead mode (assumptions ++ " " ++ line) guarantees ls
      else if Nat.eqb mode 2 then ltlmopRead mode assumptions (guarantees ++ " " ++ line) ls
      else ltlmopRead mode assumptions guarantees ls
  end.
(** line.split(" : ")[0] and whether line.find(" : ") is greater than 0. *)
Fixpoint beforeColon (s : string) : option string :=
  match s with
  | EmptyString => None
  | String a rest => if String.prefix " : " s then Some "" else option_map (String a) (beforeColon rest)
  end.
(** LTLMop: performConversion, lines 223-240. *)
Fixpoint smvRead (mode : nat) (inputBits outputBits : list string) (ls : list string) : list string * list string :=
  match ls with
  | [] => (inputBits, outputBits)
  | l :: ls =>
      let line := trim l in
      if String.prefix "MODULE env" line then smvRead 1 inputBits outputBits ls
      else if String.prefix "MODULE sys" line then smvRead 2 inputBits outputBits ls
      else
        match beforeColon line with
        | Some (String a x) =>
            if Nat.eqb mode 1 then smvRead mode (inputBits ++ [String a x])%list outputBits ls
            else if Nat.eqb mode 2 then smvRead mode inputBits (outputBits ++ [String a x])%list ls
            else smvRead mode inputBits outputBits ls
        | _ => smvRead mode inputBits outputBits ls
        end
  end.
(** LTLMop: performConversion, lines 201-259. *)
Definition ltlmopConversion (smv content : string) : pyres string :=
  let '(assumptions, guarantees) := ltlmopRead 0 "" "" (getlines content) in
  pybind (parseLTL assumptions) (fun assumptionTree =>
  pybind (parseLTL guarantees) (fun guaranteeTree =>
    let '(inputBits, outputBits) := smvRead 0 [] [] (getlines smv) in
    printed ltlmopAssignment inputBits outputBits [assumptionTree] [guaranteeTree])).
