(** * Proof annotation: LR(1) items of the states of Parser.py

    Used only to validate the tables (StructParseProofs.v).  The items were computed from the tables:
    (p, d, l) stands for production p with the dot before symbol d and the lookaheads l. *)

From Coq Require Import String List.
Import ListNotations.
Local Open Scope string_scope.

Definition lookaheads : list (list string) := [
  ["EOF"];
  ["EOF"; "<"];
  ["EOF"; "-"; "<"];
  ["EOF"; "-"; "<"; "^"];
  ["EOF"; "-"; "<"; "\"; "^"; "|"];
  ["EOF"; "&"; "-"; "/"; "<"; "\"; "^"; "|"];
  ["EOF"; "&"; "-"; "/"; "<"; "U"; "W"; "\"; "^"; "|"];
  ["!"; "<"; "="; ">"];
  ["!"; "+"; "<"; "="; ">"; "SubtractionOperator"];
  ["!"; "*"; "+"; "<"; "="; ">"; "SubtractionOperator"];
  ["!"; "*"; "+"; "<"; "="; ">"; "LEASTSIGNIFICANTBITOVERWRITES"; "SubtractionOperator"];
  ["!"; "("; "<"; "F"; "FALSE"; "G"; "TRUE"; "X"; "["; "boolID"; "next"; "numID"; "numeral"; "~"];
  ["EOF"; ")"; "<"; "]"];
  ["EOF"; ")"; "-"; "<"; "]"];
  ["<"; "]"];
  ["EOF"; "&"; ")"; "-"; "/"; "<"; "U"; "W"; "\"; "]"; "^"; "|"];
  [")"; "<"];
  ["EOF"; ")"; "-"; "<"; "]"; "^"];
  ["EOF"; ")"; "-"; "<"; "\"; "]"; "^"; "|"];
  ["EOF"; "&"; ")"; "-"; "/"; "<"; "\"; "]"; "^"; "|"];
  [")"; "-"; "<"];
  [")"; "-"; "<"; "^"];
  [")"; "-"; "<"; "\"; "^"; "|"];
  ["&"; ")"; "-"; "/"; "<"; "\"; "^"; "|"];
  ["&"; ")"; "-"; "/"; "<"; "U"; "W"; "\"; "^"; "|"];
  ["!"; ")"; "<"; "="; ">"];
  ["!"; ")"; "+"; "<"; "="; ">"; "SubtractionOperator"];
  ["!"; ")"; "*"; "+"; "<"; "="; ">"; "SubtractionOperator"];
  ["!"; ")"; "*"; "+"; "<"; "="; ">"; "LEASTSIGNIFICANTBITOVERWRITES"; "SubtractionOperator"];
  ["-"; "<"; "]"];
  ["-"; "<"; "]"; "^"];
  ["-"; "<"; "\"; "]"; "^"; "|"];
  ["&"; "-"; "/"; "<"; "\"; "]"; "^"; "|"];
  ["&"; "-"; "/"; "<"; "U"; "W"; "\"; "]"; "^"; "|"];
  ["("; "numID"; "numeral"];
  ["EOF"; "&"; ")"; "+"; "-"; "/"; "<"; "SubtractionOperator"; "U"; "W"; "\"; "]"; "^"; "|"];
  ["EOF"; "&"; ")"; "*"; "+"; "-"; "/"; "<"; "SubtractionOperator"; "U"; "W"; "\"; "]"; "^"; "|"];
  ["EOF"; "&"; ")"; "*"; "+"; "-"; "/"; "<"; "LEASTSIGNIFICANTBITOVERWRITES"; "SubtractionOperator"; "U"; "W"; "\";
   "]"; "^"; "|"];
  ["EOF"; "!"; "&"; ")"; "-"; "/"; "<"; "="; ">"; "U"; "W"; "\"; "]"; "^"; "|"];
  ["EOF"; "!"; "&"; ")"; "+"; "-"; "/"; "<"; "="; ">"; "SubtractionOperator"; "U"; "W"; "\"; "]"; "^"; "|"];
  ["EOF"; "!"; "&"; ")"; "*"; "+"; "-"; "/"; "<"; "="; ">"; "SubtractionOperator"; "U"; "W"; "\"; "]"; "^"; "|"];
  ["EOF"; "!"; "&"; ")"; "*"; "+"; "-"; "/"; "<"; "="; ">"; "LEASTSIGNIFICANTBITOVERWRITES"; "SubtractionOperator";
   "U"; "W"; "\"; "]"; "^"; "|"];
  ["EOF"; "!"; "&"; ")"; "+"; "-"; "/"; "<"; "="; ">"; "LEASTSIGNIFICANTBITOVERWRITES"; "SubtractionOperator"; "U";
   "W"; "\"; "]"; "^"; "|"];
  [")"];
  [")"; "+"; "SubtractionOperator"];
  [")"; "*"; "+"; "SubtractionOperator"];
  [")"; "*"; "+"; "LEASTSIGNIFICANTBITOVERWRITES"; "SubtractionOperator"]].

Definition itemTable : list (list (nat * nat * nat)) := [
  [(0, 0, 0); (1, 0, 1); (2, 0, 1); (3, 0, 2); (4, 0, 2); (5, 0, 3); (6, 0, 3); (7, 0, 4); (8, 0, 4); (9, 0, 5);
   (10, 0, 5); (11, 0, 6); (12, 0, 6); (13, 0, 6); (14, 0, 6); (15, 0, 6); (16, 0, 6); (17, 0, 6); (18, 0, 6);
   (19, 0, 6); (20, 0, 6); (21, 0, 6); (22, 0, 6); (23, 0, 6); (24, 0, 6); (25, 0, 7); (26, 0, 7); (27, 0, 7);
   (28, 0, 8); (29, 0, 8); (30, 0, 9); (31, 0, 9); (32, 0, 10); (33, 0, 10); (34, 0, 10); (35, 0, 10); (66, 0, 11);
   (67, 0, 11); (68, 0, 11); (69, 0, 11); (70, 0, 11); (71, 0, 11); (72, 0, 11); (73, 0, 11); (74, 0, 11);
   (75, 0, 11); (76, 0, 11); (77, 0, 11); (78, 0, 11); (79, 0, 0)];
  [(79, 1, 0)];
  [(0, 1, 0); (2, 1, 1); (42, 0, 11); (43, 0, 11)];
  [(1, 1, 12); (4, 1, 13); (40, 0, 11); (41, 0, 11)];
  [(2, 1, 14); (20, 2, 15); (42, 0, 11); (43, 0, 11)];
  [(2, 1, 16); (19, 2, 15); (42, 0, 11); (43, 0, 11)];
  [(2, 2, 12); (3, 0, 13); (4, 0, 13); (5, 0, 17); (6, 0, 17); (7, 0, 18); (8, 0, 18); (9, 0, 19); (10, 0, 19);
   (11, 0, 15); (12, 0, 15); (13, 0, 15); (14, 0, 15); (15, 0, 15); (16, 0, 15); (17, 0, 15); (18, 0, 15);
   (19, 0, 15); (20, 0, 15); (21, 0, 15); (22, 0, 15); (23, 0, 15); (24, 0, 15); (25, 0, 7); (26, 0, 7); (27, 0, 7);
   (28, 0, 8); (29, 0, 8); (30, 0, 9); (31, 0, 9); (32, 0, 10); (33, 0, 10); (34, 0, 10); (35, 0, 10); (66, 0, 11);
   (67, 0, 11); (68, 0, 11); (69, 0, 11); (70, 0, 11); (71, 0, 11); (72, 0, 11); (73, 0, 11); (74, 0, 11);
   (75, 0, 11); (76, 0, 11); (77, 0, 11); (78, 0, 11)];
  [(2, 3, 12); (4, 1, 13); (40, 0, 11); (41, 0, 11)];
  [(3, 1, 13); (6, 1, 17); (65, 0, 11)];
  [(4, 2, 13); (5, 0, 17); (6, 0, 17); (7, 0, 18); (8, 0, 18); (9, 0, 19); (10, 0, 19); (11, 0, 15); (12, 0, 15);
   (13, 0, 15); (14, 0, 15); (15, 0, 15); (16, 0, 15); (17, 0, 15); (18, 0, 15); (19, 0, 15); (20, 0, 15);
   (21, 0, 15); (22, 0, 15); (23, 0, 15); (24, 0, 15); (25, 0, 7); (26, 0, 7); (27, 0, 7); (28, 0, 8); (29, 0, 8);
   (30, 0, 9); (31, 0, 9); (32, 0, 10); (33, 0, 10); (34, 0, 10); (35, 0, 10); (66, 0, 11); (67, 0, 11); (68, 0, 11);
   (69, 0, 11); (70, 0, 11); (71, 0, 11); (72, 0, 11); (73, 0, 11); (74, 0, 11); (75, 0, 11); (76, 0, 11);
   (77, 0, 11); (78, 0, 11)];
  [(4, 3, 13); (6, 1, 17); (65, 0, 11)];
  [(5, 1, 17); (8, 1, 18); (44, 0, 11); (45, 0, 11); (46, 0, 11)];
  [(6, 2, 17); (7, 0, 18); (8, 0, 18); (9, 0, 19); (10, 0, 19); (11, 0, 15); (12, 0, 15); (13, 0, 15); (14, 0, 15);
   (15, 0, 15); (16, 0, 15); (17, 0, 15); (18, 0, 15); (19, 0, 15); (20, 0, 15); (21, 0, 15); (22, 0, 15);
   (23, 0, 15); (24, 0, 15); (25, 0, 7); (26, 0, 7); (27, 0, 7); (28, 0, 8); (29, 0, 8); (30, 0, 9); (31, 0, 9);
   (32, 0, 10); (33, 0, 10); (34, 0, 10); (35, 0, 10); (66, 0, 11); (67, 0, 11); (68, 0, 11); (69, 0, 11);
   (70, 0, 11); (71, 0, 11); (72, 0, 11); (73, 0, 11); (74, 0, 11); (75, 0, 11); (76, 0, 11); (77, 0, 11);
   (78, 0, 11)];
  [(6, 3, 17); (8, 1, 18); (44, 0, 11); (45, 0, 11); (46, 0, 11)];
  [(7, 1, 18); (10, 1, 19); (47, 0, 11); (48, 0, 11); (49, 0, 11)];
  [(8, 2, 18); (9, 0, 19); (10, 0, 19); (11, 0, 15); (12, 0, 15); (13, 0, 15); (14, 0, 15); (15, 0, 15); (16, 0, 15);
   (17, 0, 15); (18, 0, 15); (19, 0, 15); (20, 0, 15); (21, 0, 15); (22, 0, 15); (23, 0, 15); (24, 0, 15);
   (25, 0, 7); (26, 0, 7); (27, 0, 7); (28, 0, 8); (29, 0, 8); (30, 0, 9); (31, 0, 9); (32, 0, 10); (33, 0, 10);
   (34, 0, 10); (35, 0, 10); (66, 0, 11); (67, 0, 11); (68, 0, 11); (69, 0, 11); (70, 0, 11); (71, 0, 11);
   (72, 0, 11); (73, 0, 11); (74, 0, 11); (75, 0, 11); (76, 0, 11); (77, 0, 11); (78, 0, 11)];
  [(8, 3, 18); (10, 1, 19); (47, 0, 11); (48, 0, 11); (49, 0, 11)];
  [(9, 1, 19); (12, 1, 15); (36, 0, 11); (37, 0, 11); (38, 0, 11); (39, 0, 11)];
  [(10, 2, 19); (11, 0, 15); (12, 0, 15); (13, 0, 15); (14, 0, 15); (15, 0, 15); (16, 0, 15); (17, 0, 15);
   (18, 0, 15); (19, 0, 15); (20, 0, 15); (21, 0, 15); (22, 0, 15); (23, 0, 15); (24, 0, 15); (25, 0, 7); (26, 0, 7);
   (27, 0, 7); (28, 0, 8); (29, 0, 8); (30, 0, 9); (31, 0, 9); (32, 0, 10); (33, 0, 10); (34, 0, 10); (35, 0, 10);
   (66, 0, 11); (67, 0, 11); (68, 0, 11); (69, 0, 11); (70, 0, 11); (71, 0, 11); (72, 0, 11); (73, 0, 11);
   (74, 0, 11); (75, 0, 11); (76, 0, 11); (77, 0, 11); (78, 0, 11)];
  [(10, 3, 19); (12, 1, 15); (36, 0, 11); (37, 0, 11); (38, 0, 11); (39, 0, 11)];
  [(11, 1, 15)];
  [(12, 2, 15); (13, 0, 15); (14, 0, 15); (15, 0, 15); (16, 0, 15); (17, 0, 15); (18, 0, 15); (19, 0, 15);
   (20, 0, 15); (21, 0, 15); (22, 0, 15); (23, 0, 15); (24, 0, 15); (25, 0, 7); (26, 0, 7); (27, 0, 7); (28, 0, 8);
   (29, 0, 8); (30, 0, 9); (31, 0, 9); (32, 0, 10); (33, 0, 10); (34, 0, 10); (35, 0, 10); (66, 0, 11); (67, 0, 11);
   (68, 0, 11); (69, 0, 11); (70, 0, 11); (71, 0, 11); (72, 0, 11); (73, 0, 11); (74, 0, 11); (75, 0, 11);
   (76, 0, 11); (77, 0, 11); (78, 0, 11)];
  [(12, 3, 15)];
  [(13, 1, 15)];
  [(13, 0, 15); (14, 0, 15); (14, 1, 15); (15, 0, 15); (16, 0, 15); (17, 0, 15); (18, 0, 15); (19, 0, 15);
   (20, 0, 15); (21, 0, 15); (22, 0, 15); (23, 0, 15); (24, 0, 15); (25, 0, 7); (26, 0, 7); (27, 0, 7); (28, 0, 8);
   (29, 0, 8); (30, 0, 9); (31, 0, 9); (32, 0, 10); (33, 0, 10); (34, 0, 10); (35, 0, 10); (66, 0, 11); (67, 0, 11);
   (68, 0, 11); (69, 0, 11); (70, 0, 11); (71, 0, 11); (72, 0, 11); (73, 0, 11); (74, 0, 11); (75, 0, 11);
   (76, 0, 11); (77, 0, 11); (78, 0, 11)];
  [(14, 2, 15)];
  [(15, 1, 15)];
  [(16, 1, 15)];
  [(17, 1, 15)];
  [(18, 1, 15)];
  [(1, 0, 16); (2, 0, 16); (3, 0, 20); (4, 0, 20); (5, 0, 21); (6, 0, 21); (7, 0, 22); (8, 0, 22); (9, 0, 23);
   (10, 0, 23); (11, 0, 24); (12, 0, 24); (13, 0, 24); (14, 0, 24); (15, 0, 24); (16, 0, 24); (17, 0, 24);
   (18, 0, 24); (19, 0, 24); (19, 1, 15); (20, 0, 24); (21, 0, 24); (22, 0, 24); (23, 0, 24); (24, 0, 24);
   (25, 0, 25); (26, 0, 25); (27, 0, 25); (28, 0, 26); (29, 0, 26); (30, 0, 27); (31, 0, 27); (32, 0, 28);
   (33, 0, 28); (34, 0, 28); (35, 0, 28); (35, 1, 28); (66, 0, 11); (67, 0, 11); (68, 0, 11); (69, 0, 11);
   (70, 0, 11); (71, 0, 11); (72, 0, 11); (72, 1, 11); (73, 0, 11); (74, 0, 11); (75, 0, 11); (76, 0, 11);
   (77, 0, 11); (78, 0, 11)];
  [(19, 3, 15)];
  [(1, 0, 14); (2, 0, 14); (3, 0, 29); (4, 0, 29); (5, 0, 30); (6, 0, 30); (7, 0, 31); (8, 0, 31); (9, 0, 32);
   (10, 0, 32); (11, 0, 33); (12, 0, 33); (13, 0, 33); (14, 0, 33); (15, 0, 33); (16, 0, 33); (17, 0, 33);
   (18, 0, 33); (19, 0, 33); (20, 0, 33); (20, 1, 15); (21, 0, 33); (22, 0, 33); (23, 0, 33); (24, 0, 33);
   (25, 0, 7); (26, 0, 7); (27, 0, 7); (28, 0, 8); (29, 0, 8); (30, 0, 9); (31, 0, 9); (32, 0, 10); (33, 0, 10);
   (34, 0, 10); (35, 0, 10); (66, 0, 11); (67, 0, 11); (68, 0, 11); (69, 0, 11); (70, 0, 11); (71, 0, 11);
   (72, 0, 11); (73, 0, 11); (74, 0, 11); (75, 0, 11); (75, 1, 11); (76, 0, 11); (77, 0, 11); (78, 0, 11)];
  [(20, 3, 15)];
  [(21, 1, 15)];
  [(22, 1, 15)];
  [(23, 1, 15)];
  [(24, 1, 15); (50, 0, 34); (51, 0, 34); (52, 0, 34); (53, 0, 34); (54, 0, 34); (55, 0, 34); (56, 0, 34);
   (57, 0, 34); (58, 0, 34); (59, 0, 34); (60, 0, 34); (61, 0, 34)];
  [(24, 1, 24); (35, 2, 28); (50, 0, 34); (51, 0, 34); (52, 0, 34); (53, 0, 34); (54, 0, 34); (55, 0, 34);
   (56, 0, 34); (57, 0, 34); (58, 0, 34); (59, 0, 34); (60, 0, 34); (61, 0, 34)];
  [(24, 2, 15); (25, 0, 15); (26, 0, 15); (27, 0, 15); (28, 0, 35); (29, 0, 35); (30, 0, 36); (31, 0, 36);
   (32, 0, 37); (33, 0, 37); (34, 0, 37); (35, 0, 37)];
  [(24, 3, 15)];
  [(25, 1, 38); (26, 1, 38); (27, 1, 38); (62, 0, 34)];
  [(25, 0, 38); (26, 0, 38); (26, 2, 38); (27, 0, 38); (28, 0, 39); (29, 0, 39); (30, 0, 40); (31, 0, 40);
   (32, 0, 41); (33, 0, 41); (34, 0, 41); (35, 0, 41)];
  [(26, 3, 38)];
  [(25, 0, 38); (26, 0, 38); (27, 0, 38); (27, 2, 38); (28, 0, 39); (29, 0, 39); (30, 0, 40); (31, 0, 40);
   (32, 0, 41); (33, 0, 41); (34, 0, 41); (35, 0, 41)];
  [(27, 3, 38)];
  [(28, 1, 39); (29, 1, 39); (63, 0, 34)];
  [(29, 2, 39); (30, 0, 39); (31, 0, 39); (32, 0, 42); (33, 0, 42); (34, 0, 42); (35, 0, 42)];
  [(29, 3, 39)];
  [(30, 1, 40); (31, 1, 40); (64, 0, 34)];
  [(31, 2, 40); (32, 0, 40); (33, 0, 40); (34, 0, 40); (35, 0, 40)];
  [(31, 3, 40)];
  [(32, 1, 41)];
  [(33, 1, 41)];
  [(34, 1, 41)];
  [(25, 0, 43); (26, 0, 43); (27, 0, 43); (28, 0, 44); (29, 0, 44); (30, 0, 45); (31, 0, 45); (32, 0, 46);
   (33, 0, 46); (34, 0, 46); (35, 0, 46); (35, 1, 41)];
  [(35, 2, 41)];
  [(35, 3, 41)];
  [(36, 1, 11)];
  [(37, 1, 11)];
  [(38, 1, 11)];
  [(39, 1, 11)];
  [(40, 1, 11); (41, 1, 11)];
  [(40, 2, 11)];
  [(40, 3, 11)];
  [(41, 2, 11)];
  [(42, 1, 11); (43, 1, 11)];
  [(42, 2, 11); (43, 2, 11)];
  [(42, 3, 11)];
  [(42, 4, 11)];
  [(43, 3, 11)];
  [(44, 1, 11)];
  [(44, 2, 11)];
  [(45, 1, 11); (46, 1, 11)];
  [(46, 2, 11)];
  [(47, 1, 11)];
  [(47, 2, 11)];
  [(48, 1, 11); (49, 1, 11)];
  [(49, 2, 11)];
  [(50, 1, 34)];
  [(51, 1, 34)];
  [(52, 1, 34)];
  [(53, 1, 34)];
  [(54, 1, 34)];
  [(55, 1, 34)];
  [(56, 1, 34); (61, 1, 34)];
  [(57, 1, 34); (60, 1, 34)];
  [(58, 1, 34)];
  [(59, 1, 34)];
  [(59, 2, 34)];
  [(60, 2, 34)];
  [(61, 2, 34)];
  [(62, 1, 34)];
  [(63, 1, 34)];
  [(64, 1, 34)];
  [(65, 1, 11)];
  [(66, 1, 11)];
  [(67, 1, 11)];
  [(68, 1, 11)];
  [(69, 1, 11)];
  [(70, 1, 11)];
  [(70, 2, 11)];
  [(71, 1, 11)];
  [(72, 2, 11)];
  [(73, 1, 11)];
  [(74, 1, 11)];
  [(75, 2, 11)];
  [(76, 1, 11)];
  [(77, 1, 11)];
  [(78, 1, 11)];
  []].

(** Terminals that an expansion of a nonterminal can start with. *)
Definition firstTable : list (string * list string) := [
  ("Formula", ["!"; "("; "<"; "F"; "FALSE"; "G"; "TRUE"; "X"; "["; "boolID"; "next"; "numID"; "numeral"; "~"]);
  ("Biimplication", ["!"; "("; "<"; "F"; "FALSE"; "G"; "TRUE"; "X"; "["; "boolID"; "next"; "numID"; "numeral"; "~"]);
  ("Implication", ["!"; "("; "<"; "F"; "FALSE"; "G"; "TRUE"; "X"; "["; "boolID"; "next"; "numID"; "numeral"; "~"]);
  ("Xor", ["!"; "("; "<"; "F"; "FALSE"; "G"; "TRUE"; "X"; "["; "boolID"; "next"; "numID"; "numeral"; "~"]);
  ("Disjunction", ["!"; "("; "<"; "F"; "FALSE"; "G"; "TRUE"; "X"; "["; "boolID"; "next"; "numID"; "numeral"; "~"]);
  ("Conjunction", ["!"; "("; "<"; "F"; "FALSE"; "G"; "TRUE"; "X"; "["; "boolID"; "next"; "numID"; "numeral"; "~"]);
  ("BinaryTemporalFormula", ["!"; "("; "<"; "F"; "FALSE"; "G"; "TRUE"; "X"; "["; "boolID"; "next"; "numID"; "numeral"; "~"]);
  ("UnaryFormula", ["!"; "("; "<"; "F"; "FALSE"; "G"; "TRUE"; "X"; "["; "boolID"; "next"; "numID"; "numeral"; "~"]);
  ("AtomicFormula", ["("; "FALSE"; "TRUE"; "["; "boolID"; "numID"; "numeral"]);
  ("Brackets", ["("; "["]);
  ("BooleanAtomicFormula", ["("; "boolID"; "numID"; "numeral"]);
  ("Assignment", ["boolID"]);
  ("CalculationSubformula", ["("; "numID"; "numeral"]);
  ("NumberExpression", ["("; "numID"; "numeral"]);
  ("MultiplicativeNumber", ["("; "numID"; "numeral"]);
  ("LeastSignificantBitOverwriteExpression", ["("; "numID"; "numeral"]);
  ("AtomicNumberExpression", ["("; "numID"; "numeral"]);
  ("NumberBrackets", ["("]);
  ("BinaryTemporalOperator", ["U"; "W"]);
  ("UntilOperator", ["U"]);
  ("WeakUntilOperator", ["W"]);
  ("ImplicationOperator", ["-"]);
  ("BiimplicationOperator", ["<"]);
  ("DisjunctionOperator", ["\"; "|"]);
  ("ConjunctionOperator", ["&"; "/"]);
  ("NumberComparisonOperator", ["!"; "<"; "="; ">"]);
  ("GreaterOperator", [">"]);
  ("SmallerOperator", ["<"]);
  ("EqualOperator", ["="]);
  ("UnequalOperator", ["!"]);
  ("SmallerEqualOperator", ["<"]);
  ("GreaterEqualOperator", [">"]);
  ("AdditionOperator", ["+"]);
  ("MultiplicationOperator", ["*"]);
  ("LeastSignificantBitOverwriteOperator", ["LEASTSIGNIFICANTBITOVERWRITES"]);
  ("XorOperator", ["^"]);
  ("UnaryTemporalOperator", ["!"; "("; "<"; "F"; "G"; "X"; "["; "next"; "~"]);
  ("FinallyOperator", ["<"; "F"]);
  ("NextOperator", ["("; "X"; "next"]);
  ("GloballyOperator", ["G"; "["]);
  ("NotOperator", ["!"; "~"])].

(** A production with a single nonterminal on the right has a smaller rank there. *)
Definition rankTable : list (string * nat) := [
  ("Formula", 10); ("Biimplication", 9); ("Implication", 8); ("Xor", 7); ("Disjunction", 6); ("Conjunction", 5);
  ("BinaryTemporalFormula", 4); ("UnaryFormula", 3); ("AtomicFormula", 2); ("Brackets", 0);
  ("BooleanAtomicFormula", 1); ("Assignment", 0); ("CalculationSubformula", 0); ("NumberExpression", 4);
  ("MultiplicativeNumber", 3); ("LeastSignificantBitOverwriteExpression", 2); ("AtomicNumberExpression", 1);
  ("NumberBrackets", 0); ("BinaryTemporalOperator", 1); ("UntilOperator", 0); ("WeakUntilOperator", 0);
  ("ImplicationOperator", 0); ("BiimplicationOperator", 0); ("DisjunctionOperator", 0); ("ConjunctionOperator", 0);
  ("NumberComparisonOperator", 1); ("GreaterOperator", 0); ("SmallerOperator", 0); ("EqualOperator", 0);
  ("UnequalOperator", 0); ("SmallerEqualOperator", 0); ("GreaterEqualOperator", 0); ("AdditionOperator", 0);
  ("MultiplicationOperator", 0); ("LeastSignificantBitOverwriteOperator", 0); ("XorOperator", 0);
  ("UnaryTemporalOperator", 1); ("FinallyOperator", 0); ("NextOperator", 0); ("GloballyOperator", 0);
  ("NotOperator", 0)].
