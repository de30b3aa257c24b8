(** * Model: the tables of tools/StructuredSlugsParser/Parser.py

    The dictionaries of the parser generated from grammar.wi, transcribed entry by entry from
    /repo/tools/StructuredSlugsParser/Parser.py, lines 187-1092, and grouped by states: element i of
    every list has the entries with state i.  The marker EOF is the string EOF, which is no terminal. *)

From Coq Require Import String List.
Import ListNotations.
Local Open Scope string_scope.

(** Lines 187-191. *)
Definition terminals : list string :=
  ["!"; "&"; "("; ")"; "*"; "+"; "-"; "/"; "<"; "="; ">"; "F"; "FALSE"; "G"; "LEASTSIGNIFICANTBITOVERWRITES";
   "SubtractionOperator"; "TRUE"; "U"; "W"; "X"; "["; "\"; "]"; "^"; "boolID"; "next"; "numID"; "numeral"; "|"; "~"].
Definition EOF : string := "EOF".
(** Line 194. *)
Definition haltingState : nat := 110.

(** _reduce, lines 195-889: the nonterminal and the number of symbols. *)
Definition reduceTable : list (list (string * (string * nat))) := [
  []; (* 0 *)
  [];
  [("EOF", ("Formula", 1))];
  [("EOF", ("Biimplication", 1)); (")", ("Biimplication", 1)); ("<", ("Biimplication", 1));
   ("]", ("Biimplication", 1))];
  [];
  [];
  [];
  [("EOF", ("Biimplication", 3)); (")", ("Biimplication", 3)); ("<", ("Biimplication", 3));
   ("]", ("Biimplication", 3))];
  [("EOF", ("Implication", 1)); (")", ("Implication", 1)); ("-", ("Implication", 1)); ("<", ("Implication", 1));
   ("]", ("Implication", 1))];
  [];
  [("EOF", ("Implication", 3)); (")", ("Implication", 3)); ("-", ("Implication", 3)); ("<", ("Implication", 3));
   ("]", ("Implication", 3))]; (* 10 *)
  [("EOF", ("Xor", 1)); (")", ("Xor", 1)); ("-", ("Xor", 1)); ("<", ("Xor", 1)); ("]", ("Xor", 1)); ("^", ("Xor", 1))];
  [];
  [("EOF", ("Xor", 3)); (")", ("Xor", 3)); ("-", ("Xor", 3)); ("<", ("Xor", 3)); ("]", ("Xor", 3)); ("^", ("Xor", 3))];
  [("EOF", ("Disjunction", 1)); (")", ("Disjunction", 1)); ("-", ("Disjunction", 1)); ("<", ("Disjunction", 1));
   ("\", ("Disjunction", 1)); ("]", ("Disjunction", 1)); ("^", ("Disjunction", 1)); ("|", ("Disjunction", 1))];
  [];
  [("EOF", ("Disjunction", 3)); (")", ("Disjunction", 3)); ("-", ("Disjunction", 3)); ("<", ("Disjunction", 3));
   ("\", ("Disjunction", 3)); ("]", ("Disjunction", 3)); ("^", ("Disjunction", 3)); ("|", ("Disjunction", 3))];
  [("EOF", ("Conjunction", 1)); ("&", ("Conjunction", 1)); (")", ("Conjunction", 1)); ("-", ("Conjunction", 1));
   ("/", ("Conjunction", 1)); ("<", ("Conjunction", 1)); ("\", ("Conjunction", 1)); ("]", ("Conjunction", 1));
   ("^", ("Conjunction", 1)); ("|", ("Conjunction", 1))];
  [];
  [("EOF", ("Conjunction", 3)); ("&", ("Conjunction", 3)); (")", ("Conjunction", 3)); ("-", ("Conjunction", 3));
   ("/", ("Conjunction", 3)); ("<", ("Conjunction", 3)); ("\", ("Conjunction", 3)); ("]", ("Conjunction", 3));
   ("^", ("Conjunction", 3)); ("|", ("Conjunction", 3))];
  [("EOF", ("BinaryTemporalFormula", 1)); ("&", ("BinaryTemporalFormula", 1)); (")", ("BinaryTemporalFormula", 1));
   ("-", ("BinaryTemporalFormula", 1)); ("/", ("BinaryTemporalFormula", 1)); ("<", ("BinaryTemporalFormula", 1));
   ("U", ("BinaryTemporalFormula", 1)); ("W", ("BinaryTemporalFormula", 1)); ("\", ("BinaryTemporalFormula", 1));
   ("]", ("BinaryTemporalFormula", 1)); ("^", ("BinaryTemporalFormula", 1)); ("|", ("BinaryTemporalFormula", 1))]; (* 20 *)
  [];
  [("EOF", ("BinaryTemporalFormula", 3)); ("&", ("BinaryTemporalFormula", 3)); (")", ("BinaryTemporalFormula", 3));
   ("-", ("BinaryTemporalFormula", 3)); ("/", ("BinaryTemporalFormula", 3)); ("<", ("BinaryTemporalFormula", 3));
   ("U", ("BinaryTemporalFormula", 3)); ("W", ("BinaryTemporalFormula", 3)); ("\", ("BinaryTemporalFormula", 3));
   ("]", ("BinaryTemporalFormula", 3)); ("^", ("BinaryTemporalFormula", 3)); ("|", ("BinaryTemporalFormula", 3))];
  [("EOF", ("UnaryFormula", 1)); ("&", ("UnaryFormula", 1)); (")", ("UnaryFormula", 1)); ("-", ("UnaryFormula", 1));
   ("/", ("UnaryFormula", 1)); ("<", ("UnaryFormula", 1)); ("U", ("UnaryFormula", 1)); ("W", ("UnaryFormula", 1));
   ("\", ("UnaryFormula", 1)); ("]", ("UnaryFormula", 1)); ("^", ("UnaryFormula", 1)); ("|", ("UnaryFormula", 1))];
  [];
  [("EOF", ("UnaryFormula", 2)); ("&", ("UnaryFormula", 2)); (")", ("UnaryFormula", 2)); ("-", ("UnaryFormula", 2));
   ("/", ("UnaryFormula", 2)); ("<", ("UnaryFormula", 2)); ("U", ("UnaryFormula", 2)); ("W", ("UnaryFormula", 2));
   ("\", ("UnaryFormula", 2)); ("]", ("UnaryFormula", 2)); ("^", ("UnaryFormula", 2)); ("|", ("UnaryFormula", 2))];
  [("EOF", ("AtomicFormula", 1)); ("&", ("AtomicFormula", 1)); (")", ("AtomicFormula", 1));
   ("-", ("AtomicFormula", 1)); ("/", ("AtomicFormula", 1)); ("<", ("AtomicFormula", 1));
   ("U", ("AtomicFormula", 1)); ("W", ("AtomicFormula", 1)); ("\", ("AtomicFormula", 1));
   ("]", ("AtomicFormula", 1)); ("^", ("AtomicFormula", 1)); ("|", ("AtomicFormula", 1))];
  [("EOF", ("AtomicFormula", 1)); ("&", ("AtomicFormula", 1)); (")", ("AtomicFormula", 1));
   ("-", ("AtomicFormula", 1)); ("/", ("AtomicFormula", 1)); ("<", ("AtomicFormula", 1));
   ("U", ("AtomicFormula", 1)); ("W", ("AtomicFormula", 1)); ("\", ("AtomicFormula", 1));
   ("]", ("AtomicFormula", 1)); ("^", ("AtomicFormula", 1)); ("|", ("AtomicFormula", 1))];
  [("EOF", ("AtomicFormula", 1)); ("&", ("AtomicFormula", 1)); (")", ("AtomicFormula", 1));
   ("-", ("AtomicFormula", 1)); ("/", ("AtomicFormula", 1)); ("<", ("AtomicFormula", 1));
   ("U", ("AtomicFormula", 1)); ("W", ("AtomicFormula", 1)); ("\", ("AtomicFormula", 1));
   ("]", ("AtomicFormula", 1)); ("^", ("AtomicFormula", 1)); ("|", ("AtomicFormula", 1))];
  [("EOF", ("AtomicFormula", 1)); ("&", ("AtomicFormula", 1)); (")", ("AtomicFormula", 1));
   ("-", ("AtomicFormula", 1)); ("/", ("AtomicFormula", 1)); ("<", ("AtomicFormula", 1));
   ("U", ("AtomicFormula", 1)); ("W", ("AtomicFormula", 1)); ("\", ("AtomicFormula", 1));
   ("]", ("AtomicFormula", 1)); ("^", ("AtomicFormula", 1)); ("|", ("AtomicFormula", 1))];
  []; (* 30 *)
  [("EOF", ("Brackets", 3)); ("&", ("Brackets", 3)); (")", ("Brackets", 3)); ("-", ("Brackets", 3));
   ("/", ("Brackets", 3)); ("<", ("Brackets", 3)); ("U", ("Brackets", 3)); ("W", ("Brackets", 3));
   ("\", ("Brackets", 3)); ("]", ("Brackets", 3)); ("^", ("Brackets", 3)); ("|", ("Brackets", 3))];
  [];
  [("EOF", ("Brackets", 3)); ("&", ("Brackets", 3)); (")", ("Brackets", 3)); ("-", ("Brackets", 3));
   ("/", ("Brackets", 3)); ("<", ("Brackets", 3)); ("U", ("Brackets", 3)); ("W", ("Brackets", 3));
   ("\", ("Brackets", 3)); ("]", ("Brackets", 3)); ("^", ("Brackets", 3)); ("|", ("Brackets", 3))];
  [("EOF", ("BooleanAtomicFormula", 1)); ("&", ("BooleanAtomicFormula", 1)); (")", ("BooleanAtomicFormula", 1));
   ("-", ("BooleanAtomicFormula", 1)); ("/", ("BooleanAtomicFormula", 1)); ("<", ("BooleanAtomicFormula", 1));
   ("U", ("BooleanAtomicFormula", 1)); ("W", ("BooleanAtomicFormula", 1)); ("\", ("BooleanAtomicFormula", 1));
   ("]", ("BooleanAtomicFormula", 1)); ("^", ("BooleanAtomicFormula", 1)); ("|", ("BooleanAtomicFormula", 1))];
  [("EOF", ("BooleanAtomicFormula", 1)); ("&", ("BooleanAtomicFormula", 1)); (")", ("BooleanAtomicFormula", 1));
   ("-", ("BooleanAtomicFormula", 1)); ("/", ("BooleanAtomicFormula", 1)); ("<", ("BooleanAtomicFormula", 1));
   ("U", ("BooleanAtomicFormula", 1)); ("W", ("BooleanAtomicFormula", 1)); ("\", ("BooleanAtomicFormula", 1));
   ("]", ("BooleanAtomicFormula", 1)); ("^", ("BooleanAtomicFormula", 1)); ("|", ("BooleanAtomicFormula", 1))];
  [("EOF", ("Assignment", 1)); ("&", ("Assignment", 1)); (")", ("Assignment", 1)); ("-", ("Assignment", 1));
   ("/", ("Assignment", 1)); ("<", ("Assignment", 1)); ("U", ("Assignment", 1)); ("W", ("Assignment", 1));
   ("\", ("Assignment", 1)); ("]", ("Assignment", 1)); ("^", ("Assignment", 1)); ("|", ("Assignment", 1))];
  [];
  [];
  [];
  [("EOF", ("CalculationSubformula", 3)); ("&", ("CalculationSubformula", 3)); (")", ("CalculationSubformula", 3));
   ("-", ("CalculationSubformula", 3)); ("/", ("CalculationSubformula", 3)); ("<", ("CalculationSubformula", 3));
   ("U", ("CalculationSubformula", 3)); ("W", ("CalculationSubformula", 3)); ("\", ("CalculationSubformula", 3));
   ("]", ("CalculationSubformula", 3)); ("^", ("CalculationSubformula", 3)); ("|", ("CalculationSubformula", 3))]; (* 40 *)
  [("EOF", ("NumberExpression", 1)); ("!", ("NumberExpression", 1)); ("&", ("NumberExpression", 1));
   (")", ("NumberExpression", 1)); ("-", ("NumberExpression", 1)); ("/", ("NumberExpression", 1));
   ("<", ("NumberExpression", 1)); ("=", ("NumberExpression", 1)); (">", ("NumberExpression", 1));
   ("U", ("NumberExpression", 1)); ("W", ("NumberExpression", 1)); ("\", ("NumberExpression", 1));
   ("]", ("NumberExpression", 1)); ("^", ("NumberExpression", 1)); ("|", ("NumberExpression", 1))];
  [];
  [("EOF", ("NumberExpression", 3)); ("!", ("NumberExpression", 3)); ("&", ("NumberExpression", 3));
   (")", ("NumberExpression", 3)); ("-", ("NumberExpression", 3)); ("/", ("NumberExpression", 3));
   ("<", ("NumberExpression", 3)); ("=", ("NumberExpression", 3)); (">", ("NumberExpression", 3));
   ("U", ("NumberExpression", 3)); ("W", ("NumberExpression", 3)); ("\", ("NumberExpression", 3));
   ("]", ("NumberExpression", 3)); ("^", ("NumberExpression", 3)); ("|", ("NumberExpression", 3))];
  [];
  [("EOF", ("NumberExpression", 3)); ("!", ("NumberExpression", 3)); ("&", ("NumberExpression", 3));
   (")", ("NumberExpression", 3)); ("-", ("NumberExpression", 3)); ("/", ("NumberExpression", 3));
   ("<", ("NumberExpression", 3)); ("=", ("NumberExpression", 3)); (">", ("NumberExpression", 3));
   ("U", ("NumberExpression", 3)); ("W", ("NumberExpression", 3)); ("\", ("NumberExpression", 3));
   ("]", ("NumberExpression", 3)); ("^", ("NumberExpression", 3)); ("|", ("NumberExpression", 3))];
  [("EOF", ("MultiplicativeNumber", 1)); ("!", ("MultiplicativeNumber", 1)); ("&", ("MultiplicativeNumber", 1));
   (")", ("MultiplicativeNumber", 1)); ("+", ("MultiplicativeNumber", 1)); ("-", ("MultiplicativeNumber", 1));
   ("/", ("MultiplicativeNumber", 1)); ("<", ("MultiplicativeNumber", 1)); ("=", ("MultiplicativeNumber", 1));
   (">", ("MultiplicativeNumber", 1)); ("SubtractionOperator", ("MultiplicativeNumber", 1));
   ("U", ("MultiplicativeNumber", 1)); ("W", ("MultiplicativeNumber", 1)); ("\", ("MultiplicativeNumber", 1));
   ("]", ("MultiplicativeNumber", 1)); ("^", ("MultiplicativeNumber", 1)); ("|", ("MultiplicativeNumber", 1))];
  [];
  [("EOF", ("MultiplicativeNumber", 3)); ("!", ("MultiplicativeNumber", 3)); ("&", ("MultiplicativeNumber", 3));
   (")", ("MultiplicativeNumber", 3)); ("+", ("MultiplicativeNumber", 3)); ("-", ("MultiplicativeNumber", 3));
   ("/", ("MultiplicativeNumber", 3)); ("<", ("MultiplicativeNumber", 3)); ("=", ("MultiplicativeNumber", 3));
   (">", ("MultiplicativeNumber", 3)); ("SubtractionOperator", ("MultiplicativeNumber", 3));
   ("U", ("MultiplicativeNumber", 3)); ("W", ("MultiplicativeNumber", 3)); ("\", ("MultiplicativeNumber", 3));
   ("]", ("MultiplicativeNumber", 3)); ("^", ("MultiplicativeNumber", 3)); ("|", ("MultiplicativeNumber", 3))];
  [("EOF", ("LeastSignificantBitOverwriteExpression", 1)); ("!", ("LeastSignificantBitOverwriteExpression", 1));
   ("&", ("LeastSignificantBitOverwriteExpression", 1)); (")", ("LeastSignificantBitOverwriteExpression", 1));
   ("*", ("LeastSignificantBitOverwriteExpression", 1)); ("+", ("LeastSignificantBitOverwriteExpression", 1));
   ("-", ("LeastSignificantBitOverwriteExpression", 1)); ("/", ("LeastSignificantBitOverwriteExpression", 1));
   ("<", ("LeastSignificantBitOverwriteExpression", 1)); ("=", ("LeastSignificantBitOverwriteExpression", 1));
   (">", ("LeastSignificantBitOverwriteExpression", 1));
   ("SubtractionOperator", ("LeastSignificantBitOverwriteExpression", 1));
   ("U", ("LeastSignificantBitOverwriteExpression", 1)); ("W", ("LeastSignificantBitOverwriteExpression", 1));
   ("\", ("LeastSignificantBitOverwriteExpression", 1)); ("]", ("LeastSignificantBitOverwriteExpression", 1));
   ("^", ("LeastSignificantBitOverwriteExpression", 1)); ("|", ("LeastSignificantBitOverwriteExpression", 1))];
  []; (* 50 *)
  [("EOF", ("LeastSignificantBitOverwriteExpression", 3)); ("!", ("LeastSignificantBitOverwriteExpression", 3));
   ("&", ("LeastSignificantBitOverwriteExpression", 3)); (")", ("LeastSignificantBitOverwriteExpression", 3));
   ("*", ("LeastSignificantBitOverwriteExpression", 3)); ("+", ("LeastSignificantBitOverwriteExpression", 3));
   ("-", ("LeastSignificantBitOverwriteExpression", 3)); ("/", ("LeastSignificantBitOverwriteExpression", 3));
   ("<", ("LeastSignificantBitOverwriteExpression", 3)); ("=", ("LeastSignificantBitOverwriteExpression", 3));
   (">", ("LeastSignificantBitOverwriteExpression", 3));
   ("SubtractionOperator", ("LeastSignificantBitOverwriteExpression", 3));
   ("U", ("LeastSignificantBitOverwriteExpression", 3)); ("W", ("LeastSignificantBitOverwriteExpression", 3));
   ("\", ("LeastSignificantBitOverwriteExpression", 3)); ("]", ("LeastSignificantBitOverwriteExpression", 3));
   ("^", ("LeastSignificantBitOverwriteExpression", 3)); ("|", ("LeastSignificantBitOverwriteExpression", 3))];
  [("EOF", ("AtomicNumberExpression", 1)); ("!", ("AtomicNumberExpression", 1));
   ("&", ("AtomicNumberExpression", 1)); (")", ("AtomicNumberExpression", 1)); ("*", ("AtomicNumberExpression", 1));
   ("+", ("AtomicNumberExpression", 1)); ("-", ("AtomicNumberExpression", 1)); ("/", ("AtomicNumberExpression", 1));
   ("<", ("AtomicNumberExpression", 1)); ("=", ("AtomicNumberExpression", 1)); (">", ("AtomicNumberExpression", 1));
   ("LEASTSIGNIFICANTBITOVERWRITES", ("AtomicNumberExpression", 1));
   ("SubtractionOperator", ("AtomicNumberExpression", 1)); ("U", ("AtomicNumberExpression", 1));
   ("W", ("AtomicNumberExpression", 1)); ("\", ("AtomicNumberExpression", 1)); ("]", ("AtomicNumberExpression", 1));
   ("^", ("AtomicNumberExpression", 1)); ("|", ("AtomicNumberExpression", 1))];
  [("EOF", ("AtomicNumberExpression", 1)); ("!", ("AtomicNumberExpression", 1));
   ("&", ("AtomicNumberExpression", 1)); (")", ("AtomicNumberExpression", 1)); ("*", ("AtomicNumberExpression", 1));
   ("+", ("AtomicNumberExpression", 1)); ("-", ("AtomicNumberExpression", 1)); ("/", ("AtomicNumberExpression", 1));
   ("<", ("AtomicNumberExpression", 1)); ("=", ("AtomicNumberExpression", 1)); (">", ("AtomicNumberExpression", 1));
   ("LEASTSIGNIFICANTBITOVERWRITES", ("AtomicNumberExpression", 1));
   ("SubtractionOperator", ("AtomicNumberExpression", 1)); ("U", ("AtomicNumberExpression", 1));
   ("W", ("AtomicNumberExpression", 1)); ("\", ("AtomicNumberExpression", 1)); ("]", ("AtomicNumberExpression", 1));
   ("^", ("AtomicNumberExpression", 1)); ("|", ("AtomicNumberExpression", 1))];
  [("EOF", ("AtomicNumberExpression", 1)); ("!", ("AtomicNumberExpression", 1));
   ("&", ("AtomicNumberExpression", 1)); (")", ("AtomicNumberExpression", 1)); ("*", ("AtomicNumberExpression", 1));
   ("+", ("AtomicNumberExpression", 1)); ("-", ("AtomicNumberExpression", 1)); ("/", ("AtomicNumberExpression", 1));
   ("<", ("AtomicNumberExpression", 1)); ("=", ("AtomicNumberExpression", 1)); (">", ("AtomicNumberExpression", 1));
   ("LEASTSIGNIFICANTBITOVERWRITES", ("AtomicNumberExpression", 1));
   ("SubtractionOperator", ("AtomicNumberExpression", 1)); ("U", ("AtomicNumberExpression", 1));
   ("W", ("AtomicNumberExpression", 1)); ("\", ("AtomicNumberExpression", 1)); ("]", ("AtomicNumberExpression", 1));
   ("^", ("AtomicNumberExpression", 1)); ("|", ("AtomicNumberExpression", 1))];
  [];
  [];
  [("EOF", ("NumberBrackets", 3)); ("!", ("NumberBrackets", 3)); ("&", ("NumberBrackets", 3));
   (")", ("NumberBrackets", 3)); ("*", ("NumberBrackets", 3)); ("+", ("NumberBrackets", 3));
   ("-", ("NumberBrackets", 3)); ("/", ("NumberBrackets", 3)); ("<", ("NumberBrackets", 3));
   ("=", ("NumberBrackets", 3)); (">", ("NumberBrackets", 3));
   ("LEASTSIGNIFICANTBITOVERWRITES", ("NumberBrackets", 3)); ("SubtractionOperator", ("NumberBrackets", 3));
   ("U", ("NumberBrackets", 3)); ("W", ("NumberBrackets", 3)); ("\", ("NumberBrackets", 3));
   ("]", ("NumberBrackets", 3)); ("^", ("NumberBrackets", 3)); ("|", ("NumberBrackets", 3))];
  [("!", ("BinaryTemporalOperator", 1)); ("(", ("BinaryTemporalOperator", 1)); ("<", ("BinaryTemporalOperator", 1));
   ("F", ("BinaryTemporalOperator", 1)); ("FALSE", ("BinaryTemporalOperator", 1));
   ("G", ("BinaryTemporalOperator", 1)); ("TRUE", ("BinaryTemporalOperator", 1));
   ("X", ("BinaryTemporalOperator", 1)); ("[", ("BinaryTemporalOperator", 1));
   ("boolID", ("BinaryTemporalOperator", 1)); ("next", ("BinaryTemporalOperator", 1));
   ("numID", ("BinaryTemporalOperator", 1)); ("numeral", ("BinaryTemporalOperator", 1));
   ("~", ("BinaryTemporalOperator", 1))];
  [("!", ("BinaryTemporalOperator", 1)); ("(", ("BinaryTemporalOperator", 1)); ("<", ("BinaryTemporalOperator", 1));
   ("F", ("BinaryTemporalOperator", 1)); ("FALSE", ("BinaryTemporalOperator", 1));
   ("G", ("BinaryTemporalOperator", 1)); ("TRUE", ("BinaryTemporalOperator", 1));
   ("X", ("BinaryTemporalOperator", 1)); ("[", ("BinaryTemporalOperator", 1));
   ("boolID", ("BinaryTemporalOperator", 1)); ("next", ("BinaryTemporalOperator", 1));
   ("numID", ("BinaryTemporalOperator", 1)); ("numeral", ("BinaryTemporalOperator", 1));
   ("~", ("BinaryTemporalOperator", 1))];
  [("!", ("UntilOperator", 1)); ("(", ("UntilOperator", 1)); ("<", ("UntilOperator", 1));
   ("F", ("UntilOperator", 1)); ("FALSE", ("UntilOperator", 1)); ("G", ("UntilOperator", 1));
   ("TRUE", ("UntilOperator", 1)); ("X", ("UntilOperator", 1)); ("[", ("UntilOperator", 1));
   ("boolID", ("UntilOperator", 1)); ("next", ("UntilOperator", 1)); ("numID", ("UntilOperator", 1));
   ("numeral", ("UntilOperator", 1)); ("~", ("UntilOperator", 1))]; (* 60 *)
  [("!", ("WeakUntilOperator", 1)); ("(", ("WeakUntilOperator", 1)); ("<", ("WeakUntilOperator", 1));
   ("F", ("WeakUntilOperator", 1)); ("FALSE", ("WeakUntilOperator", 1)); ("G", ("WeakUntilOperator", 1));
   ("TRUE", ("WeakUntilOperator", 1)); ("X", ("WeakUntilOperator", 1)); ("[", ("WeakUntilOperator", 1));
   ("boolID", ("WeakUntilOperator", 1)); ("next", ("WeakUntilOperator", 1)); ("numID", ("WeakUntilOperator", 1));
   ("numeral", ("WeakUntilOperator", 1)); ("~", ("WeakUntilOperator", 1))];
  [];
  [];
  [("!", ("ImplicationOperator", 3)); ("(", ("ImplicationOperator", 3)); ("<", ("ImplicationOperator", 3));
   ("F", ("ImplicationOperator", 3)); ("FALSE", ("ImplicationOperator", 3)); ("G", ("ImplicationOperator", 3));
   ("TRUE", ("ImplicationOperator", 3)); ("X", ("ImplicationOperator", 3)); ("[", ("ImplicationOperator", 3));
   ("boolID", ("ImplicationOperator", 3)); ("next", ("ImplicationOperator", 3));
   ("numID", ("ImplicationOperator", 3)); ("numeral", ("ImplicationOperator", 3)); ("~", ("ImplicationOperator", 3))];
  [("!", ("ImplicationOperator", 2)); ("(", ("ImplicationOperator", 2)); ("<", ("ImplicationOperator", 2));
   ("F", ("ImplicationOperator", 2)); ("FALSE", ("ImplicationOperator", 2)); ("G", ("ImplicationOperator", 2));
   ("TRUE", ("ImplicationOperator", 2)); ("X", ("ImplicationOperator", 2)); ("[", ("ImplicationOperator", 2));
   ("boolID", ("ImplicationOperator", 2)); ("next", ("ImplicationOperator", 2));
   ("numID", ("ImplicationOperator", 2)); ("numeral", ("ImplicationOperator", 2)); ("~", ("ImplicationOperator", 2))];
  [];
  [];
  [];
  [("!", ("BiimplicationOperator", 4)); ("(", ("BiimplicationOperator", 4)); ("<", ("BiimplicationOperator", 4));
   ("F", ("BiimplicationOperator", 4)); ("FALSE", ("BiimplicationOperator", 4)); ("G", ("BiimplicationOperator", 4));
   ("TRUE", ("BiimplicationOperator", 4)); ("X", ("BiimplicationOperator", 4)); ("[", ("BiimplicationOperator", 4));
   ("boolID", ("BiimplicationOperator", 4)); ("next", ("BiimplicationOperator", 4));
   ("numID", ("BiimplicationOperator", 4)); ("numeral", ("BiimplicationOperator", 4));
   ("~", ("BiimplicationOperator", 4))];
  [("!", ("BiimplicationOperator", 3)); ("(", ("BiimplicationOperator", 3)); ("<", ("BiimplicationOperator", 3));
   ("F", ("BiimplicationOperator", 3)); ("FALSE", ("BiimplicationOperator", 3)); ("G", ("BiimplicationOperator", 3));
   ("TRUE", ("BiimplicationOperator", 3)); ("X", ("BiimplicationOperator", 3)); ("[", ("BiimplicationOperator", 3));
   ("boolID", ("BiimplicationOperator", 3)); ("next", ("BiimplicationOperator", 3));
   ("numID", ("BiimplicationOperator", 3)); ("numeral", ("BiimplicationOperator", 3));
   ("~", ("BiimplicationOperator", 3))]; (* 70 *)
  [];
  [("!", ("DisjunctionOperator", 2)); ("(", ("DisjunctionOperator", 2)); ("<", ("DisjunctionOperator", 2));
   ("F", ("DisjunctionOperator", 2)); ("FALSE", ("DisjunctionOperator", 2)); ("G", ("DisjunctionOperator", 2));
   ("TRUE", ("DisjunctionOperator", 2)); ("X", ("DisjunctionOperator", 2)); ("[", ("DisjunctionOperator", 2));
   ("boolID", ("DisjunctionOperator", 2)); ("next", ("DisjunctionOperator", 2));
   ("numID", ("DisjunctionOperator", 2)); ("numeral", ("DisjunctionOperator", 2)); ("~", ("DisjunctionOperator", 2))];
  [("!", ("DisjunctionOperator", 1)); ("(", ("DisjunctionOperator", 1)); ("<", ("DisjunctionOperator", 1));
   ("F", ("DisjunctionOperator", 1)); ("FALSE", ("DisjunctionOperator", 1)); ("G", ("DisjunctionOperator", 1));
   ("TRUE", ("DisjunctionOperator", 1)); ("X", ("DisjunctionOperator", 1)); ("[", ("DisjunctionOperator", 1));
   ("boolID", ("DisjunctionOperator", 1)); ("next", ("DisjunctionOperator", 1));
   ("numID", ("DisjunctionOperator", 1)); ("numeral", ("DisjunctionOperator", 1)); ("~", ("DisjunctionOperator", 1))];
  [("!", ("DisjunctionOperator", 2)); ("(", ("DisjunctionOperator", 2)); ("<", ("DisjunctionOperator", 2));
   ("F", ("DisjunctionOperator", 2)); ("FALSE", ("DisjunctionOperator", 2)); ("G", ("DisjunctionOperator", 2));
   ("TRUE", ("DisjunctionOperator", 2)); ("X", ("DisjunctionOperator", 2)); ("[", ("DisjunctionOperator", 2));
   ("boolID", ("DisjunctionOperator", 2)); ("next", ("DisjunctionOperator", 2));
   ("numID", ("DisjunctionOperator", 2)); ("numeral", ("DisjunctionOperator", 2)); ("~", ("DisjunctionOperator", 2))];
  [];
  [("!", ("ConjunctionOperator", 2)); ("(", ("ConjunctionOperator", 2)); ("<", ("ConjunctionOperator", 2));
   ("F", ("ConjunctionOperator", 2)); ("FALSE", ("ConjunctionOperator", 2)); ("G", ("ConjunctionOperator", 2));
   ("TRUE", ("ConjunctionOperator", 2)); ("X", ("ConjunctionOperator", 2)); ("[", ("ConjunctionOperator", 2));
   ("boolID", ("ConjunctionOperator", 2)); ("next", ("ConjunctionOperator", 2));
   ("numID", ("ConjunctionOperator", 2)); ("numeral", ("ConjunctionOperator", 2)); ("~", ("ConjunctionOperator", 2))];
  [("!", ("ConjunctionOperator", 1)); ("(", ("ConjunctionOperator", 1)); ("<", ("ConjunctionOperator", 1));
   ("F", ("ConjunctionOperator", 1)); ("FALSE", ("ConjunctionOperator", 1)); ("G", ("ConjunctionOperator", 1));
   ("TRUE", ("ConjunctionOperator", 1)); ("X", ("ConjunctionOperator", 1)); ("[", ("ConjunctionOperator", 1));
   ("boolID", ("ConjunctionOperator", 1)); ("next", ("ConjunctionOperator", 1));
   ("numID", ("ConjunctionOperator", 1)); ("numeral", ("ConjunctionOperator", 1)); ("~", ("ConjunctionOperator", 1))];
  [("!", ("ConjunctionOperator", 2)); ("(", ("ConjunctionOperator", 2)); ("<", ("ConjunctionOperator", 2));
   ("F", ("ConjunctionOperator", 2)); ("FALSE", ("ConjunctionOperator", 2)); ("G", ("ConjunctionOperator", 2));
   ("TRUE", ("ConjunctionOperator", 2)); ("X", ("ConjunctionOperator", 2)); ("[", ("ConjunctionOperator", 2));
   ("boolID", ("ConjunctionOperator", 2)); ("next", ("ConjunctionOperator", 2));
   ("numID", ("ConjunctionOperator", 2)); ("numeral", ("ConjunctionOperator", 2)); ("~", ("ConjunctionOperator", 2))];
  [("(", ("NumberComparisonOperator", 1)); ("numID", ("NumberComparisonOperator", 1));
   ("numeral", ("NumberComparisonOperator", 1))];
  [("(", ("NumberComparisonOperator", 1)); ("numID", ("NumberComparisonOperator", 1));
   ("numeral", ("NumberComparisonOperator", 1))]; (* 80 *)
  [("(", ("NumberComparisonOperator", 1)); ("numID", ("NumberComparisonOperator", 1));
   ("numeral", ("NumberComparisonOperator", 1))];
  [("(", ("NumberComparisonOperator", 1)); ("numID", ("NumberComparisonOperator", 1));
   ("numeral", ("NumberComparisonOperator", 1))];
  [("(", ("NumberComparisonOperator", 1)); ("numID", ("NumberComparisonOperator", 1));
   ("numeral", ("NumberComparisonOperator", 1))];
  [("(", ("NumberComparisonOperator", 1)); ("numID", ("NumberComparisonOperator", 1));
   ("numeral", ("NumberComparisonOperator", 1))];
  [("(", ("GreaterOperator", 1)); ("numID", ("GreaterOperator", 1)); ("numeral", ("GreaterOperator", 1))];
  [("(", ("SmallerOperator", 1)); ("numID", ("SmallerOperator", 1)); ("numeral", ("SmallerOperator", 1))];
  [("(", ("EqualOperator", 1)); ("numID", ("EqualOperator", 1)); ("numeral", ("EqualOperator", 1))];
  [];
  [("(", ("UnequalOperator", 2)); ("numID", ("UnequalOperator", 2)); ("numeral", ("UnequalOperator", 2))];
  [("(", ("SmallerEqualOperator", 2)); ("numID", ("SmallerEqualOperator", 2));
   ("numeral", ("SmallerEqualOperator", 2))]; (* 90 *)
  [("(", ("GreaterEqualOperator", 2)); ("numID", ("GreaterEqualOperator", 2));
   ("numeral", ("GreaterEqualOperator", 2))];
  [("(", ("AdditionOperator", 1)); ("numID", ("AdditionOperator", 1)); ("numeral", ("AdditionOperator", 1))];
  [("(", ("MultiplicationOperator", 1)); ("numID", ("MultiplicationOperator", 1));
   ("numeral", ("MultiplicationOperator", 1))];
  [("(", ("LeastSignificantBitOverwriteOperator", 1)); ("numID", ("LeastSignificantBitOverwriteOperator", 1));
   ("numeral", ("LeastSignificantBitOverwriteOperator", 1))];
  [("!", ("XorOperator", 1)); ("(", ("XorOperator", 1)); ("<", ("XorOperator", 1)); ("F", ("XorOperator", 1));
   ("FALSE", ("XorOperator", 1)); ("G", ("XorOperator", 1)); ("TRUE", ("XorOperator", 1)); ("X", ("XorOperator", 1));
   ("[", ("XorOperator", 1)); ("boolID", ("XorOperator", 1)); ("next", ("XorOperator", 1));
   ("numID", ("XorOperator", 1)); ("numeral", ("XorOperator", 1)); ("~", ("XorOperator", 1))];
  [("!", ("UnaryTemporalOperator", 1)); ("(", ("UnaryTemporalOperator", 1)); ("<", ("UnaryTemporalOperator", 1));
   ("F", ("UnaryTemporalOperator", 1)); ("FALSE", ("UnaryTemporalOperator", 1)); ("G", ("UnaryTemporalOperator", 1));
   ("TRUE", ("UnaryTemporalOperator", 1)); ("X", ("UnaryTemporalOperator", 1)); ("[", ("UnaryTemporalOperator", 1));
   ("boolID", ("UnaryTemporalOperator", 1)); ("next", ("UnaryTemporalOperator", 1));
   ("numID", ("UnaryTemporalOperator", 1)); ("numeral", ("UnaryTemporalOperator", 1));
   ("~", ("UnaryTemporalOperator", 1))];
  [("!", ("UnaryTemporalOperator", 1)); ("(", ("UnaryTemporalOperator", 1)); ("<", ("UnaryTemporalOperator", 1));
   ("F", ("UnaryTemporalOperator", 1)); ("FALSE", ("UnaryTemporalOperator", 1)); ("G", ("UnaryTemporalOperator", 1));
   ("TRUE", ("UnaryTemporalOperator", 1)); ("X", ("UnaryTemporalOperator", 1)); ("[", ("UnaryTemporalOperator", 1));
   ("boolID", ("UnaryTemporalOperator", 1)); ("next", ("UnaryTemporalOperator", 1));
   ("numID", ("UnaryTemporalOperator", 1)); ("numeral", ("UnaryTemporalOperator", 1));
   ("~", ("UnaryTemporalOperator", 1))];
  [("!", ("UnaryTemporalOperator", 1)); ("(", ("UnaryTemporalOperator", 1)); ("<", ("UnaryTemporalOperator", 1));
   ("F", ("UnaryTemporalOperator", 1)); ("FALSE", ("UnaryTemporalOperator", 1)); ("G", ("UnaryTemporalOperator", 1));
   ("TRUE", ("UnaryTemporalOperator", 1)); ("X", ("UnaryTemporalOperator", 1)); ("[", ("UnaryTemporalOperator", 1));
   ("boolID", ("UnaryTemporalOperator", 1)); ("next", ("UnaryTemporalOperator", 1));
   ("numID", ("UnaryTemporalOperator", 1)); ("numeral", ("UnaryTemporalOperator", 1));
   ("~", ("UnaryTemporalOperator", 1))];
  [("!", ("UnaryTemporalOperator", 1)); ("(", ("UnaryTemporalOperator", 1)); ("<", ("UnaryTemporalOperator", 1));
   ("F", ("UnaryTemporalOperator", 1)); ("FALSE", ("UnaryTemporalOperator", 1)); ("G", ("UnaryTemporalOperator", 1));
   ("TRUE", ("UnaryTemporalOperator", 1)); ("X", ("UnaryTemporalOperator", 1)); ("[", ("UnaryTemporalOperator", 1));
   ("boolID", ("UnaryTemporalOperator", 1)); ("next", ("UnaryTemporalOperator", 1));
   ("numID", ("UnaryTemporalOperator", 1)); ("numeral", ("UnaryTemporalOperator", 1));
   ("~", ("UnaryTemporalOperator", 1))];
  []; (* 100 *)
  [("!", ("FinallyOperator", 2)); ("(", ("FinallyOperator", 2)); ("<", ("FinallyOperator", 2));
   ("F", ("FinallyOperator", 2)); ("FALSE", ("FinallyOperator", 2)); ("G", ("FinallyOperator", 2));
   ("TRUE", ("FinallyOperator", 2)); ("X", ("FinallyOperator", 2)); ("[", ("FinallyOperator", 2));
   ("boolID", ("FinallyOperator", 2)); ("next", ("FinallyOperator", 2)); ("numID", ("FinallyOperator", 2));
   ("numeral", ("FinallyOperator", 2)); ("~", ("FinallyOperator", 2))];
  [("!", ("FinallyOperator", 1)); ("(", ("FinallyOperator", 1)); ("<", ("FinallyOperator", 1));
   ("F", ("FinallyOperator", 1)); ("FALSE", ("FinallyOperator", 1)); ("G", ("FinallyOperator", 1));
   ("TRUE", ("FinallyOperator", 1)); ("X", ("FinallyOperator", 1)); ("[", ("FinallyOperator", 1));
   ("boolID", ("FinallyOperator", 1)); ("next", ("FinallyOperator", 1)); ("numID", ("FinallyOperator", 1));
   ("numeral", ("FinallyOperator", 1)); ("~", ("FinallyOperator", 1))];
  [("!", ("NextOperator", 2)); ("(", ("NextOperator", 2)); ("<", ("NextOperator", 2)); ("F", ("NextOperator", 2));
   ("FALSE", ("NextOperator", 2)); ("G", ("NextOperator", 2)); ("TRUE", ("NextOperator", 2));
   ("X", ("NextOperator", 2)); ("[", ("NextOperator", 2)); ("boolID", ("NextOperator", 2));
   ("next", ("NextOperator", 2)); ("numID", ("NextOperator", 2)); ("numeral", ("NextOperator", 2));
   ("~", ("NextOperator", 2))];
  [("!", ("NextOperator", 1)); ("(", ("NextOperator", 1)); ("<", ("NextOperator", 1)); ("F", ("NextOperator", 1));
   ("FALSE", ("NextOperator", 1)); ("G", ("NextOperator", 1)); ("TRUE", ("NextOperator", 1));
   ("X", ("NextOperator", 1)); ("[", ("NextOperator", 1)); ("boolID", ("NextOperator", 1));
   ("next", ("NextOperator", 1)); ("numID", ("NextOperator", 1)); ("numeral", ("NextOperator", 1));
   ("~", ("NextOperator", 1))];
  [("!", ("NextOperator", 1)); ("(", ("NextOperator", 1)); ("<", ("NextOperator", 1)); ("F", ("NextOperator", 1));
   ("FALSE", ("NextOperator", 1)); ("G", ("NextOperator", 1)); ("TRUE", ("NextOperator", 1));
   ("X", ("NextOperator", 1)); ("[", ("NextOperator", 1)); ("boolID", ("NextOperator", 1));
   ("next", ("NextOperator", 1)); ("numID", ("NextOperator", 1)); ("numeral", ("NextOperator", 1));
   ("~", ("NextOperator", 1))];
  [("!", ("GloballyOperator", 2)); ("(", ("GloballyOperator", 2)); ("<", ("GloballyOperator", 2));
   ("F", ("GloballyOperator", 2)); ("FALSE", ("GloballyOperator", 2)); ("G", ("GloballyOperator", 2));
   ("TRUE", ("GloballyOperator", 2)); ("X", ("GloballyOperator", 2)); ("[", ("GloballyOperator", 2));
   ("boolID", ("GloballyOperator", 2)); ("next", ("GloballyOperator", 2)); ("numID", ("GloballyOperator", 2));
   ("numeral", ("GloballyOperator", 2)); ("~", ("GloballyOperator", 2))];
  [("!", ("GloballyOperator", 1)); ("(", ("GloballyOperator", 1)); ("<", ("GloballyOperator", 1));
   ("F", ("GloballyOperator", 1)); ("FALSE", ("GloballyOperator", 1)); ("G", ("GloballyOperator", 1));
   ("TRUE", ("GloballyOperator", 1)); ("X", ("GloballyOperator", 1)); ("[", ("GloballyOperator", 1));
   ("boolID", ("GloballyOperator", 1)); ("next", ("GloballyOperator", 1)); ("numID", ("GloballyOperator", 1));
   ("numeral", ("GloballyOperator", 1)); ("~", ("GloballyOperator", 1))];
  [("!", ("NotOperator", 1)); ("(", ("NotOperator", 1)); ("<", ("NotOperator", 1)); ("F", ("NotOperator", 1));
   ("FALSE", ("NotOperator", 1)); ("G", ("NotOperator", 1)); ("TRUE", ("NotOperator", 1)); ("X", ("NotOperator", 1));
   ("[", ("NotOperator", 1)); ("boolID", ("NotOperator", 1)); ("next", ("NotOperator", 1));
   ("numID", ("NotOperator", 1)); ("numeral", ("NotOperator", 1)); ("~", ("NotOperator", 1))];
  [("!", ("NotOperator", 1)); ("(", ("NotOperator", 1)); ("<", ("NotOperator", 1)); ("F", ("NotOperator", 1));
   ("FALSE", ("NotOperator", 1)); ("G", ("NotOperator", 1)); ("TRUE", ("NotOperator", 1)); ("X", ("NotOperator", 1));
   ("[", ("NotOperator", 1)); ("boolID", ("NotOperator", 1)); ("next", ("NotOperator", 1));
   ("numID", ("NotOperator", 1)); ("numeral", ("NotOperator", 1)); ("~", ("NotOperator", 1))];
  [] (* 110 *)].

(** _goto, lines 890-1031. *)
Definition gotoTable : list (list (string * nat)) := [
  [("Assignment", 34); ("AtomicFormula", 23); ("AtomicNumberExpression", 49); ("Biimplication", 2);
   ("BinaryTemporalFormula", 17); ("BooleanAtomicFormula", 29); ("Brackets", 28); ("CalculationSubformula", 35);
   ("Conjunction", 14); ("Disjunction", 11); ("FinallyOperator", 96); ("Formula", 1); ("GloballyOperator", 98);
   ("Implication", 3); ("LeastSignificantBitOverwriteExpression", 46); ("MultiplicativeNumber", 41);
   ("NextOperator", 97); ("NotOperator", 99); ("NumberBrackets", 54); ("NumberExpression", 37); ("UnaryFormula", 20);
   ("UnaryTemporalOperator", 24); ("Xor", 8)]; (* 0 *)
  [];
  [("BiimplicationOperator", 6)];
  [("ImplicationOperator", 9)];
  [("BiimplicationOperator", 6)];
  [("BiimplicationOperator", 6)];
  [("Assignment", 34); ("AtomicFormula", 23); ("AtomicNumberExpression", 49); ("BinaryTemporalFormula", 17);
   ("BooleanAtomicFormula", 29); ("Brackets", 28); ("CalculationSubformula", 35); ("Conjunction", 14);
   ("Disjunction", 11); ("FinallyOperator", 96); ("GloballyOperator", 98); ("Implication", 7);
   ("LeastSignificantBitOverwriteExpression", 46); ("MultiplicativeNumber", 41); ("NextOperator", 97);
   ("NotOperator", 99); ("NumberBrackets", 54); ("NumberExpression", 37); ("UnaryFormula", 20);
   ("UnaryTemporalOperator", 24); ("Xor", 8)];
  [("ImplicationOperator", 9)];
  [("XorOperator", 12)];
  [("Assignment", 34); ("AtomicFormula", 23); ("AtomicNumberExpression", 49); ("BinaryTemporalFormula", 17);
   ("BooleanAtomicFormula", 29); ("Brackets", 28); ("CalculationSubformula", 35); ("Conjunction", 14);
   ("Disjunction", 11); ("FinallyOperator", 96); ("GloballyOperator", 98);
   ("LeastSignificantBitOverwriteExpression", 46); ("MultiplicativeNumber", 41); ("NextOperator", 97);
   ("NotOperator", 99); ("NumberBrackets", 54); ("NumberExpression", 37); ("UnaryFormula", 20);
   ("UnaryTemporalOperator", 24); ("Xor", 10)];
  [("XorOperator", 12)]; (* 10 *)
  [("DisjunctionOperator", 15)];
  [("Assignment", 34); ("AtomicFormula", 23); ("AtomicNumberExpression", 49); ("BinaryTemporalFormula", 17);
   ("BooleanAtomicFormula", 29); ("Brackets", 28); ("CalculationSubformula", 35); ("Conjunction", 14);
   ("Disjunction", 13); ("FinallyOperator", 96); ("GloballyOperator", 98);
   ("LeastSignificantBitOverwriteExpression", 46); ("MultiplicativeNumber", 41); ("NextOperator", 97);
   ("NotOperator", 99); ("NumberBrackets", 54); ("NumberExpression", 37); ("UnaryFormula", 20);
   ("UnaryTemporalOperator", 24)];
  [("DisjunctionOperator", 15)];
  [("ConjunctionOperator", 18)];
  [("Assignment", 34); ("AtomicFormula", 23); ("AtomicNumberExpression", 49); ("BinaryTemporalFormula", 17);
   ("BooleanAtomicFormula", 29); ("Brackets", 28); ("CalculationSubformula", 35); ("Conjunction", 16);
   ("FinallyOperator", 96); ("GloballyOperator", 98); ("LeastSignificantBitOverwriteExpression", 46);
   ("MultiplicativeNumber", 41); ("NextOperator", 97); ("NotOperator", 99); ("NumberBrackets", 54);
   ("NumberExpression", 37); ("UnaryFormula", 20); ("UnaryTemporalOperator", 24)];
  [("ConjunctionOperator", 18)];
  [("BinaryTemporalOperator", 21); ("UntilOperator", 58); ("WeakUntilOperator", 59)];
  [("Assignment", 34); ("AtomicFormula", 23); ("AtomicNumberExpression", 49); ("BinaryTemporalFormula", 19);
   ("BooleanAtomicFormula", 29); ("Brackets", 28); ("CalculationSubformula", 35); ("FinallyOperator", 96);
   ("GloballyOperator", 98); ("LeastSignificantBitOverwriteExpression", 46); ("MultiplicativeNumber", 41);
   ("NextOperator", 97); ("NotOperator", 99); ("NumberBrackets", 54); ("NumberExpression", 37); ("UnaryFormula", 20);
   ("UnaryTemporalOperator", 24)];
  [("BinaryTemporalOperator", 21); ("UntilOperator", 58); ("WeakUntilOperator", 59)];
  []; (* 20 *)
  [("Assignment", 34); ("AtomicFormula", 23); ("AtomicNumberExpression", 49); ("BooleanAtomicFormula", 29);
   ("Brackets", 28); ("CalculationSubformula", 35); ("FinallyOperator", 96); ("GloballyOperator", 98);
   ("LeastSignificantBitOverwriteExpression", 46); ("MultiplicativeNumber", 41); ("NextOperator", 97);
   ("NotOperator", 99); ("NumberBrackets", 54); ("NumberExpression", 37); ("UnaryFormula", 22);
   ("UnaryTemporalOperator", 24)];
  [];
  [];
  [("Assignment", 34); ("AtomicFormula", 23); ("AtomicNumberExpression", 49); ("BooleanAtomicFormula", 29);
   ("Brackets", 28); ("CalculationSubformula", 35); ("FinallyOperator", 96); ("GloballyOperator", 98);
   ("LeastSignificantBitOverwriteExpression", 46); ("MultiplicativeNumber", 41); ("NextOperator", 97);
   ("NotOperator", 99); ("NumberBrackets", 54); ("NumberExpression", 37); ("UnaryFormula", 25);
   ("UnaryTemporalOperator", 24)];
  [];
  [];
  [];
  [];
  [];
  [("Assignment", 34); ("AtomicFormula", 23); ("AtomicNumberExpression", 49); ("Biimplication", 5);
   ("BinaryTemporalFormula", 17); ("BooleanAtomicFormula", 29); ("Brackets", 28); ("CalculationSubformula", 35);
   ("Conjunction", 14); ("Disjunction", 11); ("FinallyOperator", 96); ("GloballyOperator", 98); ("Implication", 3);
   ("LeastSignificantBitOverwriteExpression", 46); ("MultiplicativeNumber", 41); ("NextOperator", 97);
   ("NotOperator", 99); ("NumberBrackets", 54); ("NumberExpression", 38); ("UnaryFormula", 20);
   ("UnaryTemporalOperator", 24); ("Xor", 8)]; (* 30 *)
  [];
  [("Assignment", 34); ("AtomicFormula", 23); ("AtomicNumberExpression", 49); ("Biimplication", 4);
   ("BinaryTemporalFormula", 17); ("BooleanAtomicFormula", 29); ("Brackets", 28); ("CalculationSubformula", 35);
   ("Conjunction", 14); ("Disjunction", 11); ("FinallyOperator", 96); ("GloballyOperator", 98); ("Implication", 3);
   ("LeastSignificantBitOverwriteExpression", 46); ("MultiplicativeNumber", 41); ("NextOperator", 97);
   ("NotOperator", 99); ("NumberBrackets", 54); ("NumberExpression", 37); ("UnaryFormula", 20);
   ("UnaryTemporalOperator", 24); ("Xor", 8)];
  [];
  [];
  [];
  [];
  [("EqualOperator", 80); ("GreaterEqualOperator", 82); ("GreaterOperator", 79); ("NumberComparisonOperator", 39);
   ("SmallerEqualOperator", 83); ("SmallerOperator", 84); ("UnequalOperator", 81)];
  [("EqualOperator", 80); ("GreaterEqualOperator", 82); ("GreaterOperator", 79); ("NumberComparisonOperator", 39);
   ("SmallerEqualOperator", 83); ("SmallerOperator", 84); ("UnequalOperator", 81)];
  [("AtomicNumberExpression", 49); ("LeastSignificantBitOverwriteExpression", 46); ("MultiplicativeNumber", 41);
   ("NumberBrackets", 54); ("NumberExpression", 40)];
  []; (* 40 *)
  [("AdditionOperator", 42)];
  [("AtomicNumberExpression", 49); ("LeastSignificantBitOverwriteExpression", 46); ("MultiplicativeNumber", 41);
   ("NumberBrackets", 54); ("NumberExpression", 43)];
  [];
  [("AtomicNumberExpression", 49); ("LeastSignificantBitOverwriteExpression", 46); ("MultiplicativeNumber", 41);
   ("NumberBrackets", 54); ("NumberExpression", 45)];
  [];
  [("MultiplicationOperator", 47)];
  [("AtomicNumberExpression", 49); ("LeastSignificantBitOverwriteExpression", 48); ("NumberBrackets", 54)];
  [];
  [("LeastSignificantBitOverwriteOperator", 50)];
  [("AtomicNumberExpression", 51); ("NumberBrackets", 54)]; (* 50 *)
  [];
  [];
  [];
  [];
  [("AtomicNumberExpression", 49); ("LeastSignificantBitOverwriteExpression", 46); ("MultiplicativeNumber", 41);
   ("NumberBrackets", 54); ("NumberExpression", 56)];
  [];
  [];
  [];
  [];
  []; (* 60 *)
  [];
  [];
  [];
  [];
  [];
  [];
  [];
  [];
  [];
  []; (* 70 *)
  [];
  [];
  [];
  [];
  [];
  [];
  [];
  [];
  [];
  []; (* 80 *)
  [];
  [];
  [];
  [];
  [];
  [];
  [];
  [];
  [];
  []; (* 90 *)
  [];
  [];
  [];
  [];
  [];
  [];
  [];
  [];
  [];
  []; (* 100 *)
  [];
  [];
  [];
  [];
  [];
  [];
  [];
  [];
  [];
  [] (* 110 *)].

(** _shift, lines 1032-1092. *)
Definition shiftTable : list (list (string * nat)) := [
  [("!", 108); ("(", 30); ("<", 100); ("F", 102); ("FALSE", 26); ("G", 107); ("TRUE", 27); ("X", 105); ("[", 32);
   ("boolID", 36); ("next", 104); ("numID", 52); ("numeral", 53); ("~", 109)]; (* 0 *)
  [("EOF", 110)];
  [("<", 66)];
  [("-", 62)];
  [("<", 66); ("]", 33)];
  [(")", 31); ("<", 66)];
  [("!", 108); ("(", 30); ("<", 100); ("F", 102); ("FALSE", 26); ("G", 107); ("TRUE", 27); ("X", 105); ("[", 32);
   ("boolID", 36); ("next", 104); ("numID", 52); ("numeral", 53); ("~", 109)];
  [("-", 62)];
  [("^", 95)];
  [("!", 108); ("(", 30); ("<", 100); ("F", 102); ("FALSE", 26); ("G", 107); ("TRUE", 27); ("X", 105); ("[", 32);
   ("boolID", 36); ("next", 104); ("numID", 52); ("numeral", 53); ("~", 109)];
  [("^", 95)]; (* 10 *)
  [("\", 71); ("|", 73)];
  [("!", 108); ("(", 30); ("<", 100); ("F", 102); ("FALSE", 26); ("G", 107); ("TRUE", 27); ("X", 105); ("[", 32);
   ("boolID", 36); ("next", 104); ("numID", 52); ("numeral", 53); ("~", 109)];
  [("\", 71); ("|", 73)];
  [("&", 77); ("/", 75)];
  [("!", 108); ("(", 30); ("<", 100); ("F", 102); ("FALSE", 26); ("G", 107); ("TRUE", 27); ("X", 105); ("[", 32);
   ("boolID", 36); ("next", 104); ("numID", 52); ("numeral", 53); ("~", 109)];
  [("&", 77); ("/", 75)];
  [("U", 60); ("W", 61)];
  [("!", 108); ("(", 30); ("<", 100); ("F", 102); ("FALSE", 26); ("G", 107); ("TRUE", 27); ("X", 105); ("[", 32);
   ("boolID", 36); ("next", 104); ("numID", 52); ("numeral", 53); ("~", 109)];
  [("U", 60); ("W", 61)];
  []; (* 20 *)
  [("!", 108); ("(", 30); ("<", 100); ("F", 102); ("FALSE", 26); ("G", 107); ("TRUE", 27); ("X", 105); ("[", 32);
   ("boolID", 36); ("next", 104); ("numID", 52); ("numeral", 53); ("~", 109)];
  [];
  [];
  [("!", 108); ("(", 30); ("<", 100); ("F", 102); ("FALSE", 26); ("G", 107); ("TRUE", 27); ("X", 105); ("[", 32);
   ("boolID", 36); ("next", 104); ("numID", 52); ("numeral", 53); ("~", 109)];
  [];
  [];
  [];
  [];
  [];
  [("!", 108); ("(", 30); (")", 103); ("<", 100); ("F", 102); ("FALSE", 26); ("G", 107); ("TRUE", 27); ("X", 105);
   ("[", 32); ("boolID", 36); ("next", 104); ("numID", 52); ("numeral", 53); ("~", 109)]; (* 30 *)
  [];
  [("!", 108); ("(", 30); ("<", 100); ("F", 102); ("FALSE", 26); ("G", 107); ("TRUE", 27); ("X", 105); ("[", 32);
   ("]", 106); ("boolID", 36); ("next", 104); ("numID", 52); ("numeral", 53); ("~", 109)];
  [];
  [];
  [];
  [];
  [("!", 88); ("<", 86); ("=", 87); (">", 85)];
  [("!", 88); (")", 57); ("<", 86); ("=", 87); (">", 85)];
  [("(", 55); ("numID", 52); ("numeral", 53)];
  []; (* 40 *)
  [("+", 92); ("SubtractionOperator", 44)];
  [("(", 55); ("numID", 52); ("numeral", 53)];
  [];
  [("(", 55); ("numID", 52); ("numeral", 53)];
  [];
  [("*", 93)];
  [("(", 55); ("numID", 52); ("numeral", 53)];
  [];
  [("LEASTSIGNIFICANTBITOVERWRITES", 94)];
  [("(", 55); ("numID", 52); ("numeral", 53)]; (* 50 *)
  [];
  [];
  [];
  [];
  [("(", 55); ("numID", 52); ("numeral", 53)];
  [(")", 57)];
  [];
  [];
  [];
  []; (* 60 *)
  [];
  [("-", 63); (">", 65)];
  [(">", 64)];
  [];
  [];
  [("-", 67)];
  [("-", 68); (">", 70)];
  [(">", 69)];
  [];
  []; (* 70 *)
  [("/", 72)];
  [];
  [("|", 74)];
  [];
  [("\", 76)];
  [];
  [("&", 78)];
  [];
  [];
  []; (* 80 *)
  [];
  [];
  [];
  [];
  [("=", 91)];
  [("=", 90)];
  [];
  [("=", 89)];
  [];
  []; (* 90 *)
  [];
  [];
  [];
  [];
  [];
  [];
  [];
  [];
  [];
  [(">", 101)]; (* 100 *)
  [];
  [];
  [];
  [];
  [];
  [];
  [];
  [];
  [];
  [] (* 110 *)].
