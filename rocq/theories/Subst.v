(** * Model: tools/StructuredSlugsParser/integerVariableSubstitutor.py

    Modelled: the lines with properties (lines 510-531) with the functions that they call, and treeReplace.
    tokenize, the parser, clean_tree, flatten_as_much_as_possible and isValidRecursiveSlugsProperty are the ones of
    compiler.py (StructParse.v and Structured.v), except that tokenize has no word LEASTSIGNIFICANTBITOVERWRITES.
    Simplified: numbers are written without zeros at their beginning.  Not modelled: messages. *)

From Coq Require Import String Ascii List Bool Arith NArith ZArith.
From Verif Require Import FormulaSpec Parser StructuredSpec StructGrammar Structured StructParse StructFile.
Import ListNotations.
Local Open Scope string_scope.

(** tokenize, lines 26-63: a word that is a symbol only in compiler.py is a name. *)
Definition plainToken (booleanAPs : list string) (t : token) : token :=
  let long := "LEASTSIGNIFICANTBITOVERWRITES" in
  if String.eqb (fst t) long then ((if existsb (String.eqb long) booleanAPs then "boolID" else "numID"), long) else t.
(** parseLTL, lines 199-221. *)
Definition parseLine (booleanAPs : list string) (line : string) : option sfml :=
  match parseTree (map (plainToken booleanAPs) (tokenize booleanAPs line)) with
  | Some t => fmlOf t
  | None => None
  end.

(** [f(a) for a in l]. *)
Definition pyMap {A B} (f : A -> pyres B) : list A -> pyres (list B) :=
  fix all (l : list A) : pyres (list B) :=
    match l with [] => Ret [] | x :: l => pybind (f x) (fun y => pybind (all l) (fun ys => Ret (y :: ys))) end.
Definition inBrackets (l : string) : string := "(" ++ l ++ ")".

Section REPLACE.
  (** replacementData. *)
  Variable repl : string -> option (string * string).

  (** treeReplaceExpression, lines 394-425.  In trees that are printed, NumID stands for ("numID",text) with any text.
      The tree of a number in brackets contains the brackets, which are no expressions. *)
  Fixpoint treeReplaceExpression (a : num) : pyres (num * list string) :=
    match a with
    | NumID x => Ret (match repl x with Some (p, m) => (NumID p, [m]) | None => (NumID x, []) end)
    | Numeral n => Ret (Numeral n, [])
    | Add a b =>
        pybind (treeReplaceExpression a) (fun '(a, ra) => pybind (treeReplaceExpression b) (fun '(b, rb) =>
          Ret (Add a b, (ra ++ rb)%list)))
    | Mul _ _ | NumBrackets _ | Overwrite _ _ => Raise
    end.
  Definition addAll (a : num) (toBeAdded : list string) : num :=
    match toBeAdded with [] => a | _ => Add a (NumID (String.concat "+" toBeAdded)) end.
  (** treeReplace, lines 428-447. *)
  Fixpoint treeReplace (t : tree) : pyres tree :=
    match t with
    | TBiimp f g => pybind (treeReplace f) (fun f => pybind (treeReplace g) (fun g => Ret (TBiimp f g)))
    | TImp f g => pybind (treeReplace f) (fun f => pybind (treeReplace g) (fun g => Ret (TImp f g)))
    | TXor fs => pybind (pyMap treeReplace fs) (fun fs => Ret (TXor fs))
    | TOr fs => pybind (pyMap treeReplace fs) (fun fs => Ret (TOr fs))
    | TAnd fs => pybind (pyMap treeReplace fs) (fun fs => Ret (TAnd fs))
    | TUnary o f => pybind (treeReplace f) (fun f => Ret (TUnary o f))
    | TTemporal | TFalse | TTrue | TAssign _ => Ret t
    | TCalc a c b =>
        pybind (treeReplaceExpression a) (fun '(a, toBeAdded1) => pybind (treeReplaceExpression b) (fun '(b, toBeAdded2) =>
          Ret (TCalc (addAll a toBeAdded2) c (addAll b toBeAdded1))))
    end.
End REPLACE.

(** translateTreeToStructuredSlugsLine, lines 279-357: numbers. *)
Fixpoint numLine (isPrimed : bool) (a : num) : pyres string :=
  match a with
  | NumID x => if isPrimed then Raise else Ret x
  | Numeral n => Ret (showZ n)
  | Add a b => pybind (numLine isPrimed a) (fun a => pybind (numLine isPrimed b) (fun b => Ret ("((" ++ a ++ ")+(" ++ b ++ "))")))
  | Mul _ _ | NumBrackets _ | Overwrite _ _ => Raise
  end.
Definition opString (c : comparator) : string :=
  match c with CGt => ">" | CLt => "<" | CLe => "<=" | CGe => ">=" | CEq => "=" | CNe => "!=" end.
(** The other cases. *)
Fixpoint toLine (isPrimed : bool) (t : tree) : pyres string :=
  match t with
  | TBiimp f g => pybind (toLine isPrimed f) (fun b1 => pybind (toLine isPrimed g) (fun b2 => Ret ("((" ++ b1 ++ ") <-> (" ++ b2 ++ "))")))
  | TImp f g => pybind (toLine isPrimed f) (fun b1 => pybind (toLine isPrimed g) (fun b2 => Ret ("((" ++ b1 ++ ") -> (" ++ b2 ++ "))")))
  | TAnd fs => pybind (pyMap (toLine isPrimed) fs) (fun ls => Ret ("(" ++ String.concat "&" (map inBrackets ls) ++ ")"))
  | TOr fs => pybind (pyMap (toLine isPrimed) fs) (fun ls => Ret ("(" ++ String.concat "|" (map inBrackets ls) ++ ")"))
  | TUnary ONot f => pybind (toLine isPrimed f) (fun l => Ret ("! " ++ l))
  | TUnary ONext f => if isPrimed then Raise else toLine true f
  | TAssign x =>
      if isPrimed then
        if existsb (Ascii.eqb "'") (list_ascii_of_string x) then Raise else Ret (x ++ "'")
      else Ret x
  | TTrue => Ret "TRUE"
  | TFalse => Ret "FALSE"
  | TCalc a c b => pybind (numLine isPrimed a) (fun a => pybind (numLine isPrimed b) (fun b => Ret (a ++ opString c ++ b)))
  | TXor _ | TTemporal | TUnary _ _ => Raise
  end.

(** Lines 519-530 for one line. *)
Definition substituteLine (booleanAPs : list string) (repl : string -> option (string * string)) (a : string) : pyres string :=
  if firstIs "#" (trim a) then Ret a
  else if isValidRecursiveSlugsProperty booleanAPs (splitChar " " (trim a)) then Ret a
  else match parseLine booleanAPs a with
       | Some f => pybind (treeReplace repl (flatten (clean f))) (toLine false)
       | None => Raise
       end.
