(** * Model: tools/slugsFuzzer.py

    Modelled: the random files of one test (fuzzOnce, lines 42-108), their translation (lines 114-117) and the call of
    slugs (lines 122-126).  Random numbers as in Fuzz.v; the operating system splits the command at white space.  Not modelled: what
    happens after a successful call of slugs (from line 128 on), the endless loop around the tests and the seed (at the
    end of the file), the probabilities, options with characters that are special for the shell, and the bound on the recursion
    depth of Python. *)

From Coq Require Import String Ascii List Bool Arith.
From Verif Require Import FormulaSpec Explicit CommandLine Structured Ltl Fuzz.
Import ListNotations.
Local Open Scope string_scope.

(** ** The random files *)

(** The file for the variables, lines 45-52; n is nofAPsPerType, which is 3 in line 16. *)
Definition tab : string := String "009" "".
Definition declareLine (x : string) : string := tab ++ tab ++ x ++ " : boolean;" ++ nl.
Definition smvText (n : nat) : string :=
  "-- Skeleton SMV file" ++ nl ++ "-- (Generated by the Fuzzer) " ++ nl ++ nl ++ "MODULE main" ++ nl ++ "    VAR" ++ nl ++
  "        e : env();" ++ nl ++ "        s : sys();" ++ nl ++ nl ++ "MODULE env -- inputs" ++ nl ++ "    VAR" ++ nl ++
  sconcat (map (fun i => declareLine ("in" ++ showNat i)) (seq 0 n)) ++
  "MODULE sys -- outputs" ++ nl ++ "    VAR" ++ nl ++
  sconcat (map (fun i => declareLine ("out" ++ showNat i)) (seq 0 n)).

(** ops, line 60. *)
Definition ltlOps : list string := ["!"; "next"; "&"; "|"; "AP"; "AP"; "TRUE"].
(** Lines 61-63: an operator is chosen again and again until it is not next, or next can be used. *)
Fixpoint chooseOp (canNext : bool) (ds : list nat) : gres string :=
  match ds with
  | [] => GMore
  | d :: ds =>
      let op := nth (d mod List.length ltlOps) ltlOps "TRUE" in
      if String.eqb op "next" && negb canNext then chooseOp canNext ds else GOk op ds
  end.

(** makeAProperty, lines 59-78. *)
Fixpoint makeLtl (fuel : nat) (aps apsNext : list string) (ds : list nat) : gres string :=
  match fuel with
  | O => GFuel
  | S fuel =>
      gbind (chooseOp (match apsNext with [] => false | _ => true end) ds) (fun op ds =>
      if String.eqb op "!" then
        gbind (makeLtl fuel aps apsNext ds) (fun p ds => GOk ("!" ++ p) ds)
      else if String.eqb op "next" then
        gbind (makeLtl fuel apsNext [] ds) (fun p ds => GOk ("next(" ++ p ++ ")") ds)
      else if String.eqb op "&" then
        gbind (makeLtl fuel aps apsNext ds) (fun p ds =>
        gbind (makeLtl fuel aps apsNext ds) (fun q ds => GOk ("((" ++ p ++ ")&(" ++ q ++ "))") ds))
      else if String.eqb op "|" then
        gbind (makeLtl fuel aps apsNext ds) (fun p ds =>
        gbind (makeLtl fuel aps apsNext ds) (fun q ds => GOk ("((" ++ p ++ ")|(" ++ q ++ "))") ds))
      else if String.eqb op "AP" then
        match aps with [] => GOk "TRUE" ds | _ => choice aps ds end
      else GOk "TRUE" ds)
  end.

(** One of the loops in lines 87-94 and 99-106, which write properties with the given operator. *)
Fixpoint ltlLoop (fuel : nat) (operator : string) (aps apsNext : list string) (ds : list nat) : gres string :=
  match fuel with
  | O => GFuel
  | S fuel =>
      gbind (chance ds) (fun more ds =>
      if more then
        gbind (makeLtl (S (List.length ds)) aps apsNext ds) (fun p ds =>
        gbind (ltlLoop fuel operator aps apsNext ds) (fun t ds => GOk ("  &  " ++ operator ++ "(" ++ p ++ ")" ++ nl ++ t) ds))
      else GOk "" ds)
  end.
Definition ltlProperties (operator : string) (aps apsNext : list string) (ds : list nat) : gres string :=
  ltlLoop (S (List.length ds)) operator aps apsNext ds.

(** Lines 81-82. *)
Definition atomsIn (n : nat) : list string := map (fun i => "e.in" ++ showNat i) (seq 0 n).
Definition atomsOut (n : nat) : list string := map (fun i => "s.out" ++ showNat i) (seq 0 n).

(** Lines 84-108. *)
Definition ltlText (n : nat) (ds : list nat) : gres string :=
  let ins := atomsIn n in let all := (atomsIn n ++ atomsOut n)%list in
  gbind (ltlProperties "[]" ins [] ds) (fun a1 ds =>
  gbind (ltlProperties "[]" all ins ds) (fun a2 ds =>
  gbind (ltlProperties "[]<>" all [] ds) (fun a3 ds =>
  gbind (ltlProperties "[]" all [] ds) (fun g1 ds =>
  gbind (ltlProperties "[]" all all ds) (fun g2 ds =>
  gbind (ltlProperties "[]<>" all [] ds) (fun g3 ds =>
  GOk ("LTLSPEC -- Assumptions" ++ nl ++ tab ++ "( " ++ nl ++ tab ++ tab ++ "TRUE  " ++ (a1 ++ a2 ++ a3) ++ ");" ++ nl ++
       "LTLSPEC -- Guarantees" ++ nl ++ tab ++ "( " ++ nl ++ tab ++ tab ++ "TRUE  " ++ (g1 ++ g2 ++ g3) ++ ");" ++ nl) ds)))))).

(** ** The test *)

Inductive ltlFuzzReport : Type :=
| TranslationAborted       (* lines 115-117 *)
| SlugsCallFailed          (* lines 124-126 *)
| Continues.               (* the rest of the test *)

(** The command in line 122 without the redirection of the error stream; slugsExecutableAndBasicOptions is defined in
    line 34. *)
Definition slugsCommand (pid : nat) (options : list string) : string :=
  "../src/slugs " ++ String.concat " " options ++
  " --sysInitRoboticsSemantics --explicitStrategy" ++ ("/tmp/fuzz_" ++ showNat pid ++ ".slugsin") ++ " " ++ ("/tmp/fuzz_" ++ showNat pid ++ ".aut").

(** fuzzOnce. *)
Definition ltlFuzzOnce (pid : nat) (options : list string) (n : nat) (ds : list nat) : gres ltlFuzzReport :=
  gbind (ltlText n ds) (fun text ds =>
  GOk (match ltlmopConversion (smvText n) text with
       | Ret _ =>
           match exitCode (main (tl (words (slugsCommand pid options)))) with
           | Some (S _) => SlugsCallFailed
           | _ => Continues
           end
       | _ => TranslationAborted
       end) ds).
