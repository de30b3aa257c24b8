(** * Proof annotation: LR(1) items of the states of tools/parser.py

    Used only to validate the tables (LtlParseProofs.v).  The items were computed from the tables:
    (p, d, l) stands for production p with the dot before symbol d and the lookaheads l. *)

From Coq Require Import String List.
Import ListNotations.
Local Open Scope string_scope.

Definition lookaheads : list (list string) := [
  ["EOF"];
  [";"; "<"];
  ["-"; ";"; "<"];
  ["-"; ";"; "<"; "^"];
  ["+"; "-"; ";"; "<"; "\"; "^"; "|"];
  ["&"; "*"; "+"; "-"; "/"; ";"; "<"; "\"; "^"; "|"];
  ["&"; "*"; "+"; "-"; "/"; ";"; "<"; "U"; "W"; "\"; "^"; "|"];
  ["!"; "("; "<"; "F"; "FALSE"; "G"; "TRUE"; "X"; "["; "id"; "next"; "~"];
  [")"; ";"; "<"; "]"];
  [")"; "-"; ";"; "<"; "]"];
  ["<"; "]"];
  ["&"; ")"; "*"; "+"; "-"; "/"; ";"; "<"; "U"; "W"; "\"; "]"; "^"; "|"];
  [")"; "<"];
  [")"; "-"; ";"; "<"; "]"; "^"];
  [")"; "+"; "-"; ";"; "<"; "\"; "]"; "^"; "|"];
  ["&"; ")"; "*"; "+"; "-"; "/"; ";"; "<"; "\"; "]"; "^"; "|"];
  [")"; "-"; "<"];
  [")"; "-"; "<"; "^"];
  [")"; "+"; "-"; "<"; "\"; "^"; "|"];
  ["&"; ")"; "*"; "+"; "-"; "/"; "<"; "\"; "^"; "|"];
  ["&"; ")"; "*"; "+"; "-"; "/"; "<"; "U"; "W"; "\"; "^"; "|"];
  ["-"; "<"; "]"];
  ["-"; "<"; "]"; "^"];
  ["+"; "-"; "<"; "\"; "]"; "^"; "|"];
  ["&"; "*"; "+"; "-"; "/"; "<"; "\"; "]"; "^"; "|"];
  ["&"; "*"; "+"; "-"; "/"; "<"; "U"; "W"; "\"; "]"; "^"; "|"]].

Definition itemTable : list (list (nat * nat * nat)) := [
  [(0, 0, 0); (1, 0, 1); (2, 0, 1); (3, 0, 2); (4, 0, 2); (5, 0, 3); (6, 0, 3); (7, 0, 4); (8, 0, 4); (9, 0, 5);
   (10, 0, 5); (11, 0, 6); (12, 0, 6); (13, 0, 6); (14, 0, 6); (15, 0, 6); (16, 0, 6); (17, 0, 6); (18, 0, 6);
   (19, 0, 6); (20, 0, 6); (38, 0, 7); (39, 0, 7); (40, 0, 7); (41, 0, 7); (42, 0, 7); (43, 0, 7); (44, 0, 7);
   (45, 0, 7); (46, 0, 7); (47, 0, 7); (48, 0, 7); (49, 0, 7); (50, 0, 7); (51, 0, 6); (52, 0, 6); (53, 0, 6);
   (54, 0, 0)]; (* 0 *)
  [(54, 1, 0)];
  [(0, 1, 0); (2, 1, 1); (27, 0, 7); (28, 0, 7)];
  [(0, 2, 0)];
  [(1, 1, 8); (4, 1, 9); (25, 0, 7); (26, 0, 7)];
  [(2, 1, 10); (20, 2, 11); (27, 0, 7); (28, 0, 7)];
  [(2, 1, 12); (19, 2, 11); (27, 0, 7); (28, 0, 7)];
  [(2, 2, 8); (3, 0, 9); (4, 0, 9); (5, 0, 13); (6, 0, 13); (7, 0, 14); (8, 0, 14); (9, 0, 15); (10, 0, 15);
   (11, 0, 11); (12, 0, 11); (13, 0, 11); (14, 0, 11); (15, 0, 11); (16, 0, 11); (17, 0, 11); (18, 0, 11);
   (19, 0, 11); (20, 0, 11); (38, 0, 7); (39, 0, 7); (40, 0, 7); (41, 0, 7); (42, 0, 7); (43, 0, 7); (44, 0, 7);
   (45, 0, 7); (46, 0, 7); (47, 0, 7); (48, 0, 7); (49, 0, 7); (50, 0, 7); (51, 0, 11); (52, 0, 11); (53, 0, 11)];
  [(2, 3, 8); (4, 1, 9); (25, 0, 7); (26, 0, 7)];
  [(3, 1, 9); (6, 1, 13); (37, 0, 7)];
  [(4, 2, 9); (5, 0, 13); (6, 0, 13); (7, 0, 14); (8, 0, 14); (9, 0, 15); (10, 0, 15); (11, 0, 11); (12, 0, 11);
   (13, 0, 11); (14, 0, 11); (15, 0, 11); (16, 0, 11); (17, 0, 11); (18, 0, 11); (19, 0, 11); (20, 0, 11);
   (38, 0, 7); (39, 0, 7); (40, 0, 7); (41, 0, 7); (42, 0, 7); (43, 0, 7); (44, 0, 7); (45, 0, 7); (46, 0, 7);
   (47, 0, 7); (48, 0, 7); (49, 0, 7); (50, 0, 7); (51, 0, 11); (52, 0, 11); (53, 0, 11)]; (* 10 *)
  [(4, 3, 9); (6, 1, 13); (37, 0, 7)];
  [(5, 1, 13); (8, 1, 14); (29, 0, 7); (30, 0, 7); (31, 0, 7); (32, 0, 7)];
  [(6, 2, 13); (7, 0, 14); (8, 0, 14); (9, 0, 15); (10, 0, 15); (11, 0, 11); (12, 0, 11); (13, 0, 11);
   (14, 0, 11); (15, 0, 11); (16, 0, 11); (17, 0, 11); (18, 0, 11); (19, 0, 11); (20, 0, 11); (38, 0, 7);
   (39, 0, 7); (40, 0, 7); (41, 0, 7); (42, 0, 7); (43, 0, 7); (44, 0, 7); (45, 0, 7); (46, 0, 7); (47, 0, 7);
   (48, 0, 7); (49, 0, 7); (50, 0, 7); (51, 0, 11); (52, 0, 11); (53, 0, 11)];
  [(6, 3, 13); (8, 1, 14); (29, 0, 7); (30, 0, 7); (31, 0, 7); (32, 0, 7)];
  [(7, 1, 14); (10, 1, 15); (33, 0, 7); (34, 0, 7); (35, 0, 7); (36, 0, 7)];
  [(8, 2, 14); (9, 0, 15); (10, 0, 15); (11, 0, 11); (12, 0, 11); (13, 0, 11); (14, 0, 11); (15, 0, 11);
   (16, 0, 11); (17, 0, 11); (18, 0, 11); (19, 0, 11); (20, 0, 11); (38, 0, 7); (39, 0, 7); (40, 0, 7);
   (41, 0, 7); (42, 0, 7); (43, 0, 7); (44, 0, 7); (45, 0, 7); (46, 0, 7); (47, 0, 7); (48, 0, 7); (49, 0, 7);
   (50, 0, 7); (51, 0, 11); (52, 0, 11); (53, 0, 11)];
  [(8, 3, 14); (10, 1, 15); (33, 0, 7); (34, 0, 7); (35, 0, 7); (36, 0, 7)];
  [(9, 1, 15); (12, 1, 11); (21, 0, 7); (22, 0, 7); (23, 0, 7); (24, 0, 7)];
  [(10, 2, 15); (11, 0, 11); (12, 0, 11); (13, 0, 11); (14, 0, 11); (15, 0, 11); (16, 0, 11); (17, 0, 11);
   (18, 0, 11); (19, 0, 11); (20, 0, 11); (38, 0, 7); (39, 0, 7); (40, 0, 7); (41, 0, 7); (42, 0, 7); (43, 0, 7);
   (44, 0, 7); (45, 0, 7); (46, 0, 7); (47, 0, 7); (48, 0, 7); (49, 0, 7); (50, 0, 7); (51, 0, 11); (52, 0, 11);
   (53, 0, 11)];
  [(10, 3, 15); (12, 1, 11); (21, 0, 7); (22, 0, 7); (23, 0, 7); (24, 0, 7)]; (* 20 *)
  [(11, 1, 11)];
  [(12, 2, 11); (13, 0, 11); (14, 0, 11); (15, 0, 11); (16, 0, 11); (17, 0, 11); (18, 0, 11); (19, 0, 11);
   (20, 0, 11); (38, 0, 7); (39, 0, 7); (40, 0, 7); (41, 0, 7); (42, 0, 7); (43, 0, 7); (44, 0, 7); (45, 0, 7);
   (46, 0, 7); (47, 0, 7); (48, 0, 7); (49, 0, 7); (50, 0, 7); (51, 0, 11); (52, 0, 11); (53, 0, 11)];
  [(12, 3, 11)];
  [(13, 1, 11)];
  [(13, 0, 11); (14, 0, 11); (14, 1, 11); (15, 0, 11); (16, 0, 11); (17, 0, 11); (18, 0, 11); (19, 0, 11);
   (20, 0, 11); (38, 0, 7); (39, 0, 7); (40, 0, 7); (41, 0, 7); (42, 0, 7); (43, 0, 7); (44, 0, 7); (45, 0, 7);
   (46, 0, 7); (47, 0, 7); (48, 0, 7); (49, 0, 7); (50, 0, 7); (51, 0, 11); (52, 0, 11); (53, 0, 11)];
  [(14, 2, 11)];
  [(15, 1, 11)];
  [(16, 1, 11)];
  [(17, 1, 11)];
  [(18, 1, 11)]; (* 30 *)
  [(1, 0, 12); (2, 0, 12); (3, 0, 16); (4, 0, 16); (5, 0, 17); (6, 0, 17); (7, 0, 18); (8, 0, 18); (9, 0, 19);
   (10, 0, 19); (11, 0, 20); (12, 0, 20); (13, 0, 20); (14, 0, 20); (15, 0, 20); (16, 0, 20); (17, 0, 20);
   (18, 0, 20); (19, 0, 20); (19, 1, 11); (20, 0, 20); (38, 0, 7); (39, 0, 7); (40, 0, 7); (41, 0, 7); (42, 0, 7);
   (43, 0, 7); (44, 0, 7); (44, 1, 7); (45, 0, 7); (46, 0, 7); (47, 0, 7); (48, 0, 7); (49, 0, 7); (50, 0, 7);
   (51, 0, 20); (52, 0, 20); (53, 0, 20)];
  [(19, 3, 11)];
  [(1, 0, 10); (2, 0, 10); (3, 0, 21); (4, 0, 21); (5, 0, 22); (6, 0, 22); (7, 0, 23); (8, 0, 23); (9, 0, 24);
   (10, 0, 24); (11, 0, 25); (12, 0, 25); (13, 0, 25); (14, 0, 25); (15, 0, 25); (16, 0, 25); (17, 0, 25);
   (18, 0, 25); (19, 0, 25); (20, 0, 25); (20, 1, 11); (38, 0, 7); (39, 0, 7); (40, 0, 7); (41, 0, 7); (42, 0, 7);
   (43, 0, 7); (44, 0, 7); (45, 0, 7); (46, 0, 7); (47, 0, 7); (47, 1, 7); (48, 0, 7); (49, 0, 7); (50, 0, 7);
   (51, 0, 25); (52, 0, 25); (53, 0, 25)];
  [(20, 3, 11)];
  [(21, 1, 7)];
  [(22, 1, 7)];
  [(23, 1, 7)];
  [(24, 1, 7)];
  [(25, 1, 7); (26, 1, 7)];
  [(25, 2, 7)]; (* 40 *)
  [(25, 3, 7)];
  [(26, 2, 7)];
  [(27, 1, 7); (28, 1, 7)];
  [(27, 2, 7); (28, 2, 7)];
  [(27, 3, 7)];
  [(27, 4, 7)];
  [(28, 3, 7)];
  [(29, 1, 7)];
  [(30, 1, 7)];
  [(30, 2, 7)]; (* 50 *)
  [(31, 1, 7); (32, 1, 7)];
  [(32, 2, 7)];
  [(33, 1, 7)];
  [(34, 1, 7)];
  [(34, 2, 7)];
  [(35, 1, 7); (36, 1, 7)];
  [(36, 2, 7)];
  [(37, 1, 7)];
  [(38, 1, 7)];
  [(39, 1, 7)]; (* 60 *)
  [(40, 1, 7)];
  [(41, 1, 7)];
  [(42, 1, 7)];
  [(42, 2, 7)];
  [(43, 1, 7)];
  [(44, 2, 7)];
  [(45, 1, 7)];
  [(46, 1, 7)];
  [(47, 2, 7)];
  [(48, 1, 7)]; (* 70 *)
  [(49, 1, 7)];
  [(50, 1, 7)];
  [(51, 1, 11); (52, 1, 11); (53, 1, 11)];
  [(52, 2, 11); (53, 2, 11)];
  [(52, 3, 11)];
  [(53, 3, 11)];
  []].

(** The first tokens of the nonterminals. *)
Definition firstTable : list (string * list string) := [
  ("Assignment", ["id"]);
  ("AtomicFormula", ["("; "FALSE"; "TRUE"; "["; "id"]);
  ("Biimplication", ["!"; "("; "<"; "F"; "FALSE"; "G"; "TRUE"; "X"; "["; "id"; "next"; "~"]);
  ("BiimplicationOperator", ["<"]);
  ("BinaryTemporalFormula", ["!"; "("; "<"; "F"; "FALSE"; "G"; "TRUE"; "X"; "["; "id"; "next"; "~"]);
  ("BinaryTemporalOperator", ["U"; "W"]);
  ("Brackets", ["("; "["]);
  ("Conjunction", ["!"; "("; "<"; "F"; "FALSE"; "G"; "TRUE"; "X"; "["; "id"; "next"; "~"]);
  ("ConjunctionOperator", ["&"; "*"; "/"]);
  ("Disjunction", ["!"; "("; "<"; "F"; "FALSE"; "G"; "TRUE"; "X"; "["; "id"; "next"; "~"]);
  ("DisjunctionOperator", ["+"; "\"; "|"]);
  ("FinallyOperator", ["<"; "F"]);
  ("Formula", ["!"; "("; "<"; "F"; "FALSE"; "G"; "TRUE"; "X"; "["; "id"; "next"; "~"]);
  ("GloballyOperator", ["G"; "["]);
  ("Implication", ["!"; "("; "<"; "F"; "FALSE"; "G"; "TRUE"; "X"; "["; "id"; "next"; "~"]);
  ("ImplicationOperator", ["-"]);
  ("NextOperator", ["("; "X"; "next"]);
  ("NotOperator", ["!"; "~"]);
  ("UnaryFormula", ["!"; "("; "<"; "F"; "FALSE"; "G"; "TRUE"; "X"; "["; "id"; "next"; "~"]);
  ("UnaryTemporalOperator", ["!"; "("; "<"; "F"; "G"; "X"; "["; "next"; "~"]);
  ("UntilOperator", ["U"]);
  ("WeakUntilOperator", ["W"]);
  ("Xor", ["!"; "("; "<"; "F"; "FALSE"; "G"; "TRUE"; "X"; "["; "id"; "next"; "~"]);
  ("XorOperator", ["^"])].

(** Numbers that decrease along productions with one symbol. *)
Definition rankTable : list (string * nat) := [
  ("Assignment", 1); ("AtomicFormula", 2); ("Biimplication", 9); ("BiimplicationOperator", 0);
  ("BinaryTemporalFormula", 4); ("BinaryTemporalOperator", 2); ("Brackets", 0); ("Conjunction", 5);
  ("ConjunctionOperator", 1); ("Disjunction", 6); ("DisjunctionOperator", 1); ("FinallyOperator", 1);
  ("Formula", 0); ("GloballyOperator", 1); ("Implication", 8); ("ImplicationOperator", 0); ("NextOperator", 1);
  ("NotOperator", 1); ("UnaryFormula", 3); ("UnaryTemporalOperator", 2); ("UntilOperator", 1);
  ("WeakUntilOperator", 1); ("Xor", 7); ("XorOperator", 1)].
