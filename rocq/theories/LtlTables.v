(** * Model: the tables of tools/parser.py

    The dictionaries of the parser that the translators for RATSY and LTLMop use, transcribed entry by
    entry from /repo/tools/parser.py, lines 156-719, and grouped by states: element i of every list
    has the entries with state i.  The marker EOF is the string EOF, which is no terminal. *)

From Coq Require Import String List.
Import ListNotations.
Local Open Scope string_scope.

(** Lines 154-156. *)
Definition terminals : list string :=
  ["!"; "&"; "("; ")"; "*"; "+"; "-"; "/"; "0"; "1"; ";"; "<"; "="; ">"; "F"; "FALSE"; "G"; "TRUE"; "U"; "W"; "X";
   "["; "\"; "]"; "^"; "id"; "next"; "|"; "~"].
Definition EOF : string := "EOF".
(** Line 160. *)
Definition haltingState : nat := 77.

(** _reduce, lines 161-607: the nonterminal and the number of symbols. *)
Definition reduceTable : list (list (string * (string * nat))) := [
  []; (* 0 *)
  [];
  [];
  [("EOF", ("Formula", 2))];
  [(")", ("Biimplication", 1)); (";", ("Biimplication", 1)); ("<", ("Biimplication", 1));
   ("]", ("Biimplication", 1))];
  [];
  [];
  [];
  [(")", ("Biimplication", 3)); (";", ("Biimplication", 3)); ("<", ("Biimplication", 3));
   ("]", ("Biimplication", 3))];
  [(")", ("Implication", 1)); ("-", ("Implication", 1)); (";", ("Implication", 1)); ("<", ("Implication", 1));
   ("]", ("Implication", 1))];
  []; (* 10 *)
  [(")", ("Implication", 3)); ("-", ("Implication", 3)); (";", ("Implication", 3)); ("<", ("Implication", 3));
   ("]", ("Implication", 3))];
  [(")", ("Xor", 1)); ("-", ("Xor", 1)); (";", ("Xor", 1)); ("<", ("Xor", 1)); ("]", ("Xor", 1)); ("^", ("Xor", 1))];
  [];
  [(")", ("Xor", 3)); ("-", ("Xor", 3)); (";", ("Xor", 3)); ("<", ("Xor", 3)); ("]", ("Xor", 3)); ("^", ("Xor", 3))];
  [(")", ("Disjunction", 1)); ("+", ("Disjunction", 1)); ("-", ("Disjunction", 1)); (";", ("Disjunction", 1));
   ("<", ("Disjunction", 1)); ("\", ("Disjunction", 1)); ("]", ("Disjunction", 1)); ("^", ("Disjunction", 1));
   ("|", ("Disjunction", 1))];
  [];
  [(")", ("Disjunction", 3)); ("+", ("Disjunction", 3)); ("-", ("Disjunction", 3)); (";", ("Disjunction", 3));
   ("<", ("Disjunction", 3)); ("\", ("Disjunction", 3)); ("]", ("Disjunction", 3)); ("^", ("Disjunction", 3));
   ("|", ("Disjunction", 3))];
  [("&", ("Conjunction", 1)); (")", ("Conjunction", 1)); ("*", ("Conjunction", 1)); ("+", ("Conjunction", 1));
   ("-", ("Conjunction", 1)); ("/", ("Conjunction", 1)); (";", ("Conjunction", 1)); ("<", ("Conjunction", 1));
   ("\", ("Conjunction", 1)); ("]", ("Conjunction", 1)); ("^", ("Conjunction", 1)); ("|", ("Conjunction", 1))];
  [];
  [("&", ("Conjunction", 3)); (")", ("Conjunction", 3)); ("*", ("Conjunction", 3)); ("+", ("Conjunction", 3));
   ("-", ("Conjunction", 3)); ("/", ("Conjunction", 3)); (";", ("Conjunction", 3)); ("<", ("Conjunction", 3));
   ("\", ("Conjunction", 3)); ("]", ("Conjunction", 3)); ("^", ("Conjunction", 3)); ("|", ("Conjunction", 3))]; (* 20 *)
  [("&", ("BinaryTemporalFormula", 1)); (")", ("BinaryTemporalFormula", 1)); ("*", ("BinaryTemporalFormula", 1));
   ("+", ("BinaryTemporalFormula", 1)); ("-", ("BinaryTemporalFormula", 1)); ("/", ("BinaryTemporalFormula", 1));
   (";", ("BinaryTemporalFormula", 1)); ("<", ("BinaryTemporalFormula", 1)); ("U", ("BinaryTemporalFormula", 1));
   ("W", ("BinaryTemporalFormula", 1)); ("\", ("BinaryTemporalFormula", 1)); ("]", ("BinaryTemporalFormula", 1));
   ("^", ("BinaryTemporalFormula", 1)); ("|", ("BinaryTemporalFormula", 1))];
  [];
  [("&", ("BinaryTemporalFormula", 3)); (")", ("BinaryTemporalFormula", 3)); ("*", ("BinaryTemporalFormula", 3));
   ("+", ("BinaryTemporalFormula", 3)); ("-", ("BinaryTemporalFormula", 3)); ("/", ("BinaryTemporalFormula", 3));
   (";", ("BinaryTemporalFormula", 3)); ("<", ("BinaryTemporalFormula", 3)); ("U", ("BinaryTemporalFormula", 3));
   ("W", ("BinaryTemporalFormula", 3)); ("\", ("BinaryTemporalFormula", 3)); ("]", ("BinaryTemporalFormula", 3));
   ("^", ("BinaryTemporalFormula", 3)); ("|", ("BinaryTemporalFormula", 3))];
  [("&", ("UnaryFormula", 1)); (")", ("UnaryFormula", 1)); ("*", ("UnaryFormula", 1)); ("+", ("UnaryFormula", 1));
   ("-", ("UnaryFormula", 1)); ("/", ("UnaryFormula", 1)); (";", ("UnaryFormula", 1)); ("<", ("UnaryFormula", 1));
   ("U", ("UnaryFormula", 1)); ("W", ("UnaryFormula", 1)); ("\", ("UnaryFormula", 1)); ("]", ("UnaryFormula", 1));
   ("^", ("UnaryFormula", 1)); ("|", ("UnaryFormula", 1))];
  [];
  [("&", ("UnaryFormula", 2)); (")", ("UnaryFormula", 2)); ("*", ("UnaryFormula", 2)); ("+", ("UnaryFormula", 2));
   ("-", ("UnaryFormula", 2)); ("/", ("UnaryFormula", 2)); (";", ("UnaryFormula", 2)); ("<", ("UnaryFormula", 2));
   ("U", ("UnaryFormula", 2)); ("W", ("UnaryFormula", 2)); ("\", ("UnaryFormula", 2)); ("]", ("UnaryFormula", 2));
   ("^", ("UnaryFormula", 2)); ("|", ("UnaryFormula", 2))];
  [("&", ("AtomicFormula", 1)); (")", ("AtomicFormula", 1)); ("*", ("AtomicFormula", 1));
   ("+", ("AtomicFormula", 1)); ("-", ("AtomicFormula", 1)); ("/", ("AtomicFormula", 1));
   (";", ("AtomicFormula", 1)); ("<", ("AtomicFormula", 1)); ("U", ("AtomicFormula", 1));
   ("W", ("AtomicFormula", 1)); ("\", ("AtomicFormula", 1)); ("]", ("AtomicFormula", 1));
   ("^", ("AtomicFormula", 1)); ("|", ("AtomicFormula", 1))];
  [("&", ("AtomicFormula", 1)); (")", ("AtomicFormula", 1)); ("*", ("AtomicFormula", 1));
   ("+", ("AtomicFormula", 1)); ("-", ("AtomicFormula", 1)); ("/", ("AtomicFormula", 1));
   (";", ("AtomicFormula", 1)); ("<", ("AtomicFormula", 1)); ("U", ("AtomicFormula", 1));
   ("W", ("AtomicFormula", 1)); ("\", ("AtomicFormula", 1)); ("]", ("AtomicFormula", 1));
   ("^", ("AtomicFormula", 1)); ("|", ("AtomicFormula", 1))];
  [("&", ("AtomicFormula", 1)); (")", ("AtomicFormula", 1)); ("*", ("AtomicFormula", 1));
   ("+", ("AtomicFormula", 1)); ("-", ("AtomicFormula", 1)); ("/", ("AtomicFormula", 1));
   (";", ("AtomicFormula", 1)); ("<", ("AtomicFormula", 1)); ("U", ("AtomicFormula", 1));
   ("W", ("AtomicFormula", 1)); ("\", ("AtomicFormula", 1)); ("]", ("AtomicFormula", 1));
   ("^", ("AtomicFormula", 1)); ("|", ("AtomicFormula", 1))];
  [("&", ("AtomicFormula", 1)); (")", ("AtomicFormula", 1)); ("*", ("AtomicFormula", 1));
   ("+", ("AtomicFormula", 1)); ("-", ("AtomicFormula", 1)); ("/", ("AtomicFormula", 1));
   (";", ("AtomicFormula", 1)); ("<", ("AtomicFormula", 1)); ("U", ("AtomicFormula", 1));
   ("W", ("AtomicFormula", 1)); ("\", ("AtomicFormula", 1)); ("]", ("AtomicFormula", 1));
   ("^", ("AtomicFormula", 1)); ("|", ("AtomicFormula", 1))]; (* 30 *)
  [];
  [("&", ("Brackets", 3)); (")", ("Brackets", 3)); ("*", ("Brackets", 3)); ("+", ("Brackets", 3));
   ("-", ("Brackets", 3)); ("/", ("Brackets", 3)); (";", ("Brackets", 3)); ("<", ("Brackets", 3));
   ("U", ("Brackets", 3)); ("W", ("Brackets", 3)); ("\", ("Brackets", 3)); ("]", ("Brackets", 3));
   ("^", ("Brackets", 3)); ("|", ("Brackets", 3))];
  [];
  [("&", ("Brackets", 3)); (")", ("Brackets", 3)); ("*", ("Brackets", 3)); ("+", ("Brackets", 3));
   ("-", ("Brackets", 3)); ("/", ("Brackets", 3)); (";", ("Brackets", 3)); ("<", ("Brackets", 3));
   ("U", ("Brackets", 3)); ("W", ("Brackets", 3)); ("\", ("Brackets", 3)); ("]", ("Brackets", 3));
   ("^", ("Brackets", 3)); ("|", ("Brackets", 3))];
  [("!", ("BinaryTemporalOperator", 1)); ("(", ("BinaryTemporalOperator", 1));
   ("<", ("BinaryTemporalOperator", 1)); ("F", ("BinaryTemporalOperator", 1));
   ("FALSE", ("BinaryTemporalOperator", 1)); ("G", ("BinaryTemporalOperator", 1));
   ("TRUE", ("BinaryTemporalOperator", 1)); ("X", ("BinaryTemporalOperator", 1));
   ("[", ("BinaryTemporalOperator", 1)); ("id", ("BinaryTemporalOperator", 1));
   ("next", ("BinaryTemporalOperator", 1)); ("~", ("BinaryTemporalOperator", 1))];
  [("!", ("BinaryTemporalOperator", 1)); ("(", ("BinaryTemporalOperator", 1));
   ("<", ("BinaryTemporalOperator", 1)); ("F", ("BinaryTemporalOperator", 1));
   ("FALSE", ("BinaryTemporalOperator", 1)); ("G", ("BinaryTemporalOperator", 1));
   ("TRUE", ("BinaryTemporalOperator", 1)); ("X", ("BinaryTemporalOperator", 1));
   ("[", ("BinaryTemporalOperator", 1)); ("id", ("BinaryTemporalOperator", 1));
   ("next", ("BinaryTemporalOperator", 1)); ("~", ("BinaryTemporalOperator", 1))];
  [("!", ("UntilOperator", 1)); ("(", ("UntilOperator", 1)); ("<", ("UntilOperator", 1));
   ("F", ("UntilOperator", 1)); ("FALSE", ("UntilOperator", 1)); ("G", ("UntilOperator", 1));
   ("TRUE", ("UntilOperator", 1)); ("X", ("UntilOperator", 1)); ("[", ("UntilOperator", 1));
   ("id", ("UntilOperator", 1)); ("next", ("UntilOperator", 1)); ("~", ("UntilOperator", 1))];
  [("!", ("WeakUntilOperator", 1)); ("(", ("WeakUntilOperator", 1)); ("<", ("WeakUntilOperator", 1));
   ("F", ("WeakUntilOperator", 1)); ("FALSE", ("WeakUntilOperator", 1)); ("G", ("WeakUntilOperator", 1));
   ("TRUE", ("WeakUntilOperator", 1)); ("X", ("WeakUntilOperator", 1)); ("[", ("WeakUntilOperator", 1));
   ("id", ("WeakUntilOperator", 1)); ("next", ("WeakUntilOperator", 1)); ("~", ("WeakUntilOperator", 1))];
  [];
  []; (* 40 *)
  [("!", ("ImplicationOperator", 3)); ("(", ("ImplicationOperator", 3)); ("<", ("ImplicationOperator", 3));
   ("F", ("ImplicationOperator", 3)); ("FALSE", ("ImplicationOperator", 3)); ("G", ("ImplicationOperator", 3));
   ("TRUE", ("ImplicationOperator", 3)); ("X", ("ImplicationOperator", 3)); ("[", ("ImplicationOperator", 3));
   ("id", ("ImplicationOperator", 3)); ("next", ("ImplicationOperator", 3)); ("~", ("ImplicationOperator", 3))];
  [("!", ("ImplicationOperator", 2)); ("(", ("ImplicationOperator", 2)); ("<", ("ImplicationOperator", 2));
   ("F", ("ImplicationOperator", 2)); ("FALSE", ("ImplicationOperator", 2)); ("G", ("ImplicationOperator", 2));
   ("TRUE", ("ImplicationOperator", 2)); ("X", ("ImplicationOperator", 2)); ("[", ("ImplicationOperator", 2));
   ("id", ("ImplicationOperator", 2)); ("next", ("ImplicationOperator", 2)); ("~", ("ImplicationOperator", 2))];
  [];
  [];
  [];
  [("!", ("BiimplicationOperator", 4)); ("(", ("BiimplicationOperator", 4)); ("<", ("BiimplicationOperator", 4));
   ("F", ("BiimplicationOperator", 4)); ("FALSE", ("BiimplicationOperator", 4));
   ("G", ("BiimplicationOperator", 4)); ("TRUE", ("BiimplicationOperator", 4));
   ("X", ("BiimplicationOperator", 4)); ("[", ("BiimplicationOperator", 4)); ("id", ("BiimplicationOperator", 4));
   ("next", ("BiimplicationOperator", 4)); ("~", ("BiimplicationOperator", 4))];
  [("!", ("BiimplicationOperator", 3)); ("(", ("BiimplicationOperator", 3)); ("<", ("BiimplicationOperator", 3));
   ("F", ("BiimplicationOperator", 3)); ("FALSE", ("BiimplicationOperator", 3));
   ("G", ("BiimplicationOperator", 3)); ("TRUE", ("BiimplicationOperator", 3));
   ("X", ("BiimplicationOperator", 3)); ("[", ("BiimplicationOperator", 3)); ("id", ("BiimplicationOperator", 3));
   ("next", ("BiimplicationOperator", 3)); ("~", ("BiimplicationOperator", 3))];
  [("!", ("DisjunctionOperator", 1)); ("(", ("DisjunctionOperator", 1)); ("<", ("DisjunctionOperator", 1));
   ("F", ("DisjunctionOperator", 1)); ("FALSE", ("DisjunctionOperator", 1)); ("G", ("DisjunctionOperator", 1));
   ("TRUE", ("DisjunctionOperator", 1)); ("X", ("DisjunctionOperator", 1)); ("[", ("DisjunctionOperator", 1));
   ("id", ("DisjunctionOperator", 1)); ("next", ("DisjunctionOperator", 1)); ("~", ("DisjunctionOperator", 1))];
  [];
  [("!", ("DisjunctionOperator", 2)); ("(", ("DisjunctionOperator", 2)); ("<", ("DisjunctionOperator", 2));
   ("F", ("DisjunctionOperator", 2)); ("FALSE", ("DisjunctionOperator", 2)); ("G", ("DisjunctionOperator", 2));
   ("TRUE", ("DisjunctionOperator", 2)); ("X", ("DisjunctionOperator", 2)); ("[", ("DisjunctionOperator", 2));
   ("id", ("DisjunctionOperator", 2)); ("next", ("DisjunctionOperator", 2)); ("~", ("DisjunctionOperator", 2))]; (* 50 *)
  [("!", ("DisjunctionOperator", 1)); ("(", ("DisjunctionOperator", 1)); ("<", ("DisjunctionOperator", 1));
   ("F", ("DisjunctionOperator", 1)); ("FALSE", ("DisjunctionOperator", 1)); ("G", ("DisjunctionOperator", 1));
   ("TRUE", ("DisjunctionOperator", 1)); ("X", ("DisjunctionOperator", 1)); ("[", ("DisjunctionOperator", 1));
   ("id", ("DisjunctionOperator", 1)); ("next", ("DisjunctionOperator", 1)); ("~", ("DisjunctionOperator", 1))];
  [("!", ("DisjunctionOperator", 2)); ("(", ("DisjunctionOperator", 2)); ("<", ("DisjunctionOperator", 2));
   ("F", ("DisjunctionOperator", 2)); ("FALSE", ("DisjunctionOperator", 2)); ("G", ("DisjunctionOperator", 2));
   ("TRUE", ("DisjunctionOperator", 2)); ("X", ("DisjunctionOperator", 2)); ("[", ("DisjunctionOperator", 2));
   ("id", ("DisjunctionOperator", 2)); ("next", ("DisjunctionOperator", 2)); ("~", ("DisjunctionOperator", 2))];
  [("!", ("ConjunctionOperator", 1)); ("(", ("ConjunctionOperator", 1)); ("<", ("ConjunctionOperator", 1));
   ("F", ("ConjunctionOperator", 1)); ("FALSE", ("ConjunctionOperator", 1)); ("G", ("ConjunctionOperator", 1));
   ("TRUE", ("ConjunctionOperator", 1)); ("X", ("ConjunctionOperator", 1)); ("[", ("ConjunctionOperator", 1));
   ("id", ("ConjunctionOperator", 1)); ("next", ("ConjunctionOperator", 1)); ("~", ("ConjunctionOperator", 1))];
  [];
  [("!", ("ConjunctionOperator", 2)); ("(", ("ConjunctionOperator", 2)); ("<", ("ConjunctionOperator", 2));
   ("F", ("ConjunctionOperator", 2)); ("FALSE", ("ConjunctionOperator", 2)); ("G", ("ConjunctionOperator", 2));
   ("TRUE", ("ConjunctionOperator", 2)); ("X", ("ConjunctionOperator", 2)); ("[", ("ConjunctionOperator", 2));
   ("id", ("ConjunctionOperator", 2)); ("next", ("ConjunctionOperator", 2)); ("~", ("ConjunctionOperator", 2))];
  [("!", ("ConjunctionOperator", 1)); ("(", ("ConjunctionOperator", 1)); ("<", ("ConjunctionOperator", 1));
   ("F", ("ConjunctionOperator", 1)); ("FALSE", ("ConjunctionOperator", 1)); ("G", ("ConjunctionOperator", 1));
   ("TRUE", ("ConjunctionOperator", 1)); ("X", ("ConjunctionOperator", 1)); ("[", ("ConjunctionOperator", 1));
   ("id", ("ConjunctionOperator", 1)); ("next", ("ConjunctionOperator", 1)); ("~", ("ConjunctionOperator", 1))];
  [("!", ("ConjunctionOperator", 2)); ("(", ("ConjunctionOperator", 2)); ("<", ("ConjunctionOperator", 2));
   ("F", ("ConjunctionOperator", 2)); ("FALSE", ("ConjunctionOperator", 2)); ("G", ("ConjunctionOperator", 2));
   ("TRUE", ("ConjunctionOperator", 2)); ("X", ("ConjunctionOperator", 2)); ("[", ("ConjunctionOperator", 2));
   ("id", ("ConjunctionOperator", 2)); ("next", ("ConjunctionOperator", 2)); ("~", ("ConjunctionOperator", 2))];
  [("!", ("XorOperator", 1)); ("(", ("XorOperator", 1)); ("<", ("XorOperator", 1)); ("F", ("XorOperator", 1));
   ("FALSE", ("XorOperator", 1)); ("G", ("XorOperator", 1)); ("TRUE", ("XorOperator", 1));
   ("X", ("XorOperator", 1)); ("[", ("XorOperator", 1)); ("id", ("XorOperator", 1)); ("next", ("XorOperator", 1));
   ("~", ("XorOperator", 1))];
  [("!", ("UnaryTemporalOperator", 1)); ("(", ("UnaryTemporalOperator", 1)); ("<", ("UnaryTemporalOperator", 1));
   ("F", ("UnaryTemporalOperator", 1)); ("FALSE", ("UnaryTemporalOperator", 1));
   ("G", ("UnaryTemporalOperator", 1)); ("TRUE", ("UnaryTemporalOperator", 1));
   ("X", ("UnaryTemporalOperator", 1)); ("[", ("UnaryTemporalOperator", 1)); ("id", ("UnaryTemporalOperator", 1));
   ("next", ("UnaryTemporalOperator", 1)); ("~", ("UnaryTemporalOperator", 1))];
  [("!", ("UnaryTemporalOperator", 1)); ("(", ("UnaryTemporalOperator", 1)); ("<", ("UnaryTemporalOperator", 1));
   ("F", ("UnaryTemporalOperator", 1)); ("FALSE", ("UnaryTemporalOperator", 1));
   ("G", ("UnaryTemporalOperator", 1)); ("TRUE", ("UnaryTemporalOperator", 1));
   ("X", ("UnaryTemporalOperator", 1)); ("[", ("UnaryTemporalOperator", 1)); ("id", ("UnaryTemporalOperator", 1));
   ("next", ("UnaryTemporalOperator", 1)); ("~", ("UnaryTemporalOperator", 1))]; (* 60 *)
  [("!", ("UnaryTemporalOperator", 1)); ("(", ("UnaryTemporalOperator", 1)); ("<", ("UnaryTemporalOperator", 1));
   ("F", ("UnaryTemporalOperator", 1)); ("FALSE", ("UnaryTemporalOperator", 1));
   ("G", ("UnaryTemporalOperator", 1)); ("TRUE", ("UnaryTemporalOperator", 1));
   ("X", ("UnaryTemporalOperator", 1)); ("[", ("UnaryTemporalOperator", 1)); ("id", ("UnaryTemporalOperator", 1));
   ("next", ("UnaryTemporalOperator", 1)); ("~", ("UnaryTemporalOperator", 1))];
  [("!", ("UnaryTemporalOperator", 1)); ("(", ("UnaryTemporalOperator", 1)); ("<", ("UnaryTemporalOperator", 1));
   ("F", ("UnaryTemporalOperator", 1)); ("FALSE", ("UnaryTemporalOperator", 1));
   ("G", ("UnaryTemporalOperator", 1)); ("TRUE", ("UnaryTemporalOperator", 1));
   ("X", ("UnaryTemporalOperator", 1)); ("[", ("UnaryTemporalOperator", 1)); ("id", ("UnaryTemporalOperator", 1));
   ("next", ("UnaryTemporalOperator", 1)); ("~", ("UnaryTemporalOperator", 1))];
  [];
  [("!", ("FinallyOperator", 2)); ("(", ("FinallyOperator", 2)); ("<", ("FinallyOperator", 2));
   ("F", ("FinallyOperator", 2)); ("FALSE", ("FinallyOperator", 2)); ("G", ("FinallyOperator", 2));
   ("TRUE", ("FinallyOperator", 2)); ("X", ("FinallyOperator", 2)); ("[", ("FinallyOperator", 2));
   ("id", ("FinallyOperator", 2)); ("next", ("FinallyOperator", 2)); ("~", ("FinallyOperator", 2))];
  [("!", ("FinallyOperator", 1)); ("(", ("FinallyOperator", 1)); ("<", ("FinallyOperator", 1));
   ("F", ("FinallyOperator", 1)); ("FALSE", ("FinallyOperator", 1)); ("G", ("FinallyOperator", 1));
   ("TRUE", ("FinallyOperator", 1)); ("X", ("FinallyOperator", 1)); ("[", ("FinallyOperator", 1));
   ("id", ("FinallyOperator", 1)); ("next", ("FinallyOperator", 1)); ("~", ("FinallyOperator", 1))];
  [("!", ("NextOperator", 2)); ("(", ("NextOperator", 2)); ("<", ("NextOperator", 2)); ("F", ("NextOperator", 2));
   ("FALSE", ("NextOperator", 2)); ("G", ("NextOperator", 2)); ("TRUE", ("NextOperator", 2));
   ("X", ("NextOperator", 2)); ("[", ("NextOperator", 2)); ("id", ("NextOperator", 2));
   ("next", ("NextOperator", 2)); ("~", ("NextOperator", 2))];
  [("!", ("NextOperator", 1)); ("(", ("NextOperator", 1)); ("<", ("NextOperator", 1)); ("F", ("NextOperator", 1));
   ("FALSE", ("NextOperator", 1)); ("G", ("NextOperator", 1)); ("TRUE", ("NextOperator", 1));
   ("X", ("NextOperator", 1)); ("[", ("NextOperator", 1)); ("id", ("NextOperator", 1));
   ("next", ("NextOperator", 1)); ("~", ("NextOperator", 1))];
  [("!", ("NextOperator", 1)); ("(", ("NextOperator", 1)); ("<", ("NextOperator", 1)); ("F", ("NextOperator", 1));
   ("FALSE", ("NextOperator", 1)); ("G", ("NextOperator", 1)); ("TRUE", ("NextOperator", 1));
   ("X", ("NextOperator", 1)); ("[", ("NextOperator", 1)); ("id", ("NextOperator", 1));
   ("next", ("NextOperator", 1)); ("~", ("NextOperator", 1))];
  [("!", ("GloballyOperator", 2)); ("(", ("GloballyOperator", 2)); ("<", ("GloballyOperator", 2));
   ("F", ("GloballyOperator", 2)); ("FALSE", ("GloballyOperator", 2)); ("G", ("GloballyOperator", 2));
   ("TRUE", ("GloballyOperator", 2)); ("X", ("GloballyOperator", 2)); ("[", ("GloballyOperator", 2));
   ("id", ("GloballyOperator", 2)); ("next", ("GloballyOperator", 2)); ("~", ("GloballyOperator", 2))];
  [("!", ("GloballyOperator", 1)); ("(", ("GloballyOperator", 1)); ("<", ("GloballyOperator", 1));
   ("F", ("GloballyOperator", 1)); ("FALSE", ("GloballyOperator", 1)); ("G", ("GloballyOperator", 1));
   ("TRUE", ("GloballyOperator", 1)); ("X", ("GloballyOperator", 1)); ("[", ("GloballyOperator", 1));
   ("id", ("GloballyOperator", 1)); ("next", ("GloballyOperator", 1)); ("~", ("GloballyOperator", 1))]; (* 70 *)
  [("!", ("NotOperator", 1)); ("(", ("NotOperator", 1)); ("<", ("NotOperator", 1)); ("F", ("NotOperator", 1));
   ("FALSE", ("NotOperator", 1)); ("G", ("NotOperator", 1)); ("TRUE", ("NotOperator", 1));
   ("X", ("NotOperator", 1)); ("[", ("NotOperator", 1)); ("id", ("NotOperator", 1)); ("next", ("NotOperator", 1));
   ("~", ("NotOperator", 1))];
  [("!", ("NotOperator", 1)); ("(", ("NotOperator", 1)); ("<", ("NotOperator", 1)); ("F", ("NotOperator", 1));
   ("FALSE", ("NotOperator", 1)); ("G", ("NotOperator", 1)); ("TRUE", ("NotOperator", 1));
   ("X", ("NotOperator", 1)); ("[", ("NotOperator", 1)); ("id", ("NotOperator", 1)); ("next", ("NotOperator", 1));
   ("~", ("NotOperator", 1))];
  [("&", ("Assignment", 1)); (")", ("Assignment", 1)); ("*", ("Assignment", 1)); ("+", ("Assignment", 1));
   ("-", ("Assignment", 1)); ("/", ("Assignment", 1)); (";", ("Assignment", 1)); ("<", ("Assignment", 1));
   ("U", ("Assignment", 1)); ("W", ("Assignment", 1)); ("\", ("Assignment", 1)); ("]", ("Assignment", 1));
   ("^", ("Assignment", 1)); ("|", ("Assignment", 1))];
  [];
  [("&", ("Assignment", 3)); (")", ("Assignment", 3)); ("*", ("Assignment", 3)); ("+", ("Assignment", 3));
   ("-", ("Assignment", 3)); ("/", ("Assignment", 3)); (";", ("Assignment", 3)); ("<", ("Assignment", 3));
   ("U", ("Assignment", 3)); ("W", ("Assignment", 3)); ("\", ("Assignment", 3)); ("]", ("Assignment", 3));
   ("^", ("Assignment", 3)); ("|", ("Assignment", 3))];
  [("&", ("Assignment", 3)); (")", ("Assignment", 3)); ("*", ("Assignment", 3)); ("+", ("Assignment", 3));
   ("-", ("Assignment", 3)); ("/", ("Assignment", 3)); (";", ("Assignment", 3)); ("<", ("Assignment", 3));
   ("U", ("Assignment", 3)); ("W", ("Assignment", 3)); ("\", ("Assignment", 3)); ("]", ("Assignment", 3));
   ("^", ("Assignment", 3)); ("|", ("Assignment", 3))];
  []].

(** _goto, lines 608-676. *)
Definition gotoTable : list (list (string * nat)) := [
  [("Assignment", 30); ("AtomicFormula", 24); ("Biimplication", 2); ("BinaryTemporalFormula", 18);
   ("Brackets", 29); ("Conjunction", 15); ("Disjunction", 12); ("FinallyOperator", 59); ("Formula", 1);
   ("GloballyOperator", 61); ("Implication", 4); ("NextOperator", 60); ("NotOperator", 62); ("UnaryFormula", 21);
   ("UnaryTemporalOperator", 25); ("Xor", 9)]; (* 0 *)
  [];
  [("BiimplicationOperator", 7)];
  [];
  [("ImplicationOperator", 10)];
  [("BiimplicationOperator", 7)];
  [("BiimplicationOperator", 7)];
  [("Assignment", 30); ("AtomicFormula", 24); ("BinaryTemporalFormula", 18); ("Brackets", 29);
   ("Conjunction", 15); ("Disjunction", 12); ("FinallyOperator", 59); ("GloballyOperator", 61);
   ("Implication", 8); ("NextOperator", 60); ("NotOperator", 62); ("UnaryFormula", 21);
   ("UnaryTemporalOperator", 25); ("Xor", 9)];
  [("ImplicationOperator", 10)];
  [("XorOperator", 13)];
  [("Assignment", 30); ("AtomicFormula", 24); ("BinaryTemporalFormula", 18); ("Brackets", 29);
   ("Conjunction", 15); ("Disjunction", 12); ("FinallyOperator", 59); ("GloballyOperator", 61);
   ("NextOperator", 60); ("NotOperator", 62); ("UnaryFormula", 21); ("UnaryTemporalOperator", 25); ("Xor", 11)]; (* 10 *)
  [("XorOperator", 13)];
  [("DisjunctionOperator", 16)];
  [("Assignment", 30); ("AtomicFormula", 24); ("BinaryTemporalFormula", 18); ("Brackets", 29);
   ("Conjunction", 15); ("Disjunction", 14); ("FinallyOperator", 59); ("GloballyOperator", 61);
   ("NextOperator", 60); ("NotOperator", 62); ("UnaryFormula", 21); ("UnaryTemporalOperator", 25)];
  [("DisjunctionOperator", 16)];
  [("ConjunctionOperator", 19)];
  [("Assignment", 30); ("AtomicFormula", 24); ("BinaryTemporalFormula", 18); ("Brackets", 29);
   ("Conjunction", 17); ("FinallyOperator", 59); ("GloballyOperator", 61); ("NextOperator", 60);
   ("NotOperator", 62); ("UnaryFormula", 21); ("UnaryTemporalOperator", 25)];
  [("ConjunctionOperator", 19)];
  [("BinaryTemporalOperator", 22); ("UntilOperator", 35); ("WeakUntilOperator", 36)];
  [("Assignment", 30); ("AtomicFormula", 24); ("BinaryTemporalFormula", 20); ("Brackets", 29);
   ("FinallyOperator", 59); ("GloballyOperator", 61); ("NextOperator", 60); ("NotOperator", 62);
   ("UnaryFormula", 21); ("UnaryTemporalOperator", 25)];
  [("BinaryTemporalOperator", 22); ("UntilOperator", 35); ("WeakUntilOperator", 36)]; (* 20 *)
  [];
  [("Assignment", 30); ("AtomicFormula", 24); ("Brackets", 29); ("FinallyOperator", 59); ("GloballyOperator", 61);
   ("NextOperator", 60); ("NotOperator", 62); ("UnaryFormula", 23); ("UnaryTemporalOperator", 25)];
  [];
  [];
  [("Assignment", 30); ("AtomicFormula", 24); ("Brackets", 29); ("FinallyOperator", 59); ("GloballyOperator", 61);
   ("NextOperator", 60); ("NotOperator", 62); ("UnaryFormula", 26); ("UnaryTemporalOperator", 25)];
  [];
  [];
  [];
  [];
  []; (* 30 *)
  [("Assignment", 30); ("AtomicFormula", 24); ("Biimplication", 6); ("BinaryTemporalFormula", 18);
   ("Brackets", 29); ("Conjunction", 15); ("Disjunction", 12); ("FinallyOperator", 59); ("GloballyOperator", 61);
   ("Implication", 4); ("NextOperator", 60); ("NotOperator", 62); ("UnaryFormula", 21);
   ("UnaryTemporalOperator", 25); ("Xor", 9)];
  [];
  [("Assignment", 30); ("AtomicFormula", 24); ("Biimplication", 5); ("BinaryTemporalFormula", 18);
   ("Brackets", 29); ("Conjunction", 15); ("Disjunction", 12); ("FinallyOperator", 59); ("GloballyOperator", 61);
   ("Implication", 4); ("NextOperator", 60); ("NotOperator", 62); ("UnaryFormula", 21);
   ("UnaryTemporalOperator", 25); ("Xor", 9)];
  [];
  [];
  [];
  [];
  [];
  [];
  []; (* 40 *)
  [];
  [];
  [];
  [];
  [];
  [];
  [];
  [];
  [];
  []; (* 50 *)
  [];
  [];
  [];
  [];
  [];
  [];
  [];
  [];
  [];
  []; (* 60 *)
  [];
  [];
  [];
  [];
  [];
  [];
  [];
  [];
  [];
  []; (* 70 *)
  [];
  [];
  [];
  [];
  [];
  [];
  []].

(** _shift, lines 677-719. *)
Definition shiftTable : list (list (string * nat)) := [
  [("!", 71); ("(", 31); ("<", 63); ("F", 65); ("FALSE", 27); ("G", 70); ("TRUE", 28); ("X", 68); ("[", 33);
   ("id", 73); ("next", 67); ("~", 72)]; (* 0 *)
  [("EOF", 77)];
  [(";", 3); ("<", 43)];
  [];
  [("-", 39)];
  [("<", 43); ("]", 34)];
  [(")", 32); ("<", 43)];
  [("!", 71); ("(", 31); ("<", 63); ("F", 65); ("FALSE", 27); ("G", 70); ("TRUE", 28); ("X", 68); ("[", 33);
   ("id", 73); ("next", 67); ("~", 72)];
  [("-", 39)];
  [("^", 58)];
  [("!", 71); ("(", 31); ("<", 63); ("F", 65); ("FALSE", 27); ("G", 70); ("TRUE", 28); ("X", 68); ("[", 33);
   ("id", 73); ("next", 67); ("~", 72)]; (* 10 *)
  [("^", 58)];
  [("+", 48); ("\", 49); ("|", 51)];
  [("!", 71); ("(", 31); ("<", 63); ("F", 65); ("FALSE", 27); ("G", 70); ("TRUE", 28); ("X", 68); ("[", 33);
   ("id", 73); ("next", 67); ("~", 72)];
  [("+", 48); ("\", 49); ("|", 51)];
  [("&", 56); ("*", 53); ("/", 54)];
  [("!", 71); ("(", 31); ("<", 63); ("F", 65); ("FALSE", 27); ("G", 70); ("TRUE", 28); ("X", 68); ("[", 33);
   ("id", 73); ("next", 67); ("~", 72)];
  [("&", 56); ("*", 53); ("/", 54)];
  [("U", 37); ("W", 38)];
  [("!", 71); ("(", 31); ("<", 63); ("F", 65); ("FALSE", 27); ("G", 70); ("TRUE", 28); ("X", 68); ("[", 33);
   ("id", 73); ("next", 67); ("~", 72)];
  [("U", 37); ("W", 38)]; (* 20 *)
  [];
  [("!", 71); ("(", 31); ("<", 63); ("F", 65); ("FALSE", 27); ("G", 70); ("TRUE", 28); ("X", 68); ("[", 33);
   ("id", 73); ("next", 67); ("~", 72)];
  [];
  [];
  [("!", 71); ("(", 31); ("<", 63); ("F", 65); ("FALSE", 27); ("G", 70); ("TRUE", 28); ("X", 68); ("[", 33);
   ("id", 73); ("next", 67); ("~", 72)];
  [];
  [];
  [];
  [];
  []; (* 30 *)
  [("!", 71); ("(", 31); (")", 66); ("<", 63); ("F", 65); ("FALSE", 27); ("G", 70); ("TRUE", 28); ("X", 68);
   ("[", 33); ("id", 73); ("next", 67); ("~", 72)];
  [];
  [("!", 71); ("(", 31); ("<", 63); ("F", 65); ("FALSE", 27); ("G", 70); ("TRUE", 28); ("X", 68); ("[", 33);
   ("]", 69); ("id", 73); ("next", 67); ("~", 72)];
  [];
  [];
  [];
  [];
  [];
  [("-", 40); (">", 42)];
  [(">", 41)]; (* 40 *)
  [];
  [];
  [("-", 44)];
  [("-", 45); (">", 47)];
  [(">", 46)];
  [];
  [];
  [];
  [("/", 50)];
  []; (* 50 *)
  [("|", 52)];
  [];
  [];
  [("\", 55)];
  [];
  [("&", 57)];
  [];
  [];
  [];
  []; (* 60 *)
  [];
  [];
  [(">", 64)];
  [];
  [];
  [];
  [];
  [];
  [];
  []; (* 70 *)
  [];
  [];
  [("=", 74)];
  [("0", 75); ("1", 76)];
  [];
  [];
  []].
