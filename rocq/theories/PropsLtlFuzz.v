(** * Property C94: the fuzz tester for LTL specifications *)

From Coq Require Import String Ascii List Bool Arith Lia.
From Verif Require Import Synth FormulaSpec Parser Spec FileSpec Execute Explicit CommandLine CommandLineSpec PropsCommandLine EstimatorText Structured StructuredProofs LtlSpec Ltl PropsLtl
  Fuzz FuzzProofs LtlFuzz LtlFuzzProofs.
Import ListNotations.
Local Open Scope string_scope.
Local Open Scope list_scope.

Definition numbered (prefix : string) (n : nat) : list string := map (fun i => prefix ++ showNat i)%string (seq 0 n).

(** Whatever the random numbers are, the two files are a documented pair of files: they declare the variables in0, in1,
    and so on, and out0, out1, and so on; they contain one formula for the assumptions and one for the guarantees; the
    assumptions do not speak about what the system will do; and the formulas can be translated.  There are no conditions
    on initial positions, although the comments in the program announce some. *)
Theorem C94_specification n ds text rest : ltlText n ds = GOk text rest -> exists a g assumption guarantee,
  smvFile (file_lines (smvText n)) (numbered "in" n) (numbered "out" n) /\ ltlmopFile (file_lines text) a g /\
  entryText a assumption /\ entryText g guarantee /\ plainText a /\ plainText g /\
  translatable ltlmopAtom [assumption] [guarantee] = true /\
  wellScoped ltlmopVar (numbered "in" n) (numbered "out" n) [assumption] [guarantee] = true /\
  parts initialOf [assumption] = [LTrue] /\ parts initialOf [guarantee] = [LTrue].
Proof.
  intros E. destruct (ltlText_spec n ds text rest E) as (a & g & fa & fg & A1 & A2 & A3 & A4 & A5 & A6 & A7 & A8 & A9). exists a, g, fa, fg.
  split; [apply smvText_spec|]. tauto.
Qed.
Print Assumptions C94_specification.

(** Every test gets past the translation, and slugs answers correctly for the result: the translated file says the same as
    the random formulas. *)
Theorem C94_answer n ds text rest : ltlText n ds = GOk text rest -> exists a g assumption guarantee out,
  ltlmopFile (file_lines text) a g /\ entryText a assumption /\ entryText g guarantee /\
  ltlmopConversion (smvText n) text = Ret out /\
  let G := ltlGame ltlmopVar (numbered "in" n) (numbered "out" n) [assumption] [guarantee] in
  forall ord, match executeFile ord out with
              | POk Realizable => realizable G
              | POk Unrealizable => ~ realizable G
              | _ => False
              end.
Proof.
  intros E. destruct (C94_specification n ds text rest E) as (a & g & fa & fg & A1 & A2 & A3 & A4 & A5 & A6 & A7 & A8 & _). exists a, g, fa, fg.
  destruct (C88_answer (smvText n) text (numbered "in" n) (numbered "out" n) a g fa fg A1 A2 A3 A4 A5 A6 (names_ok n) (names_NoDup n) A7 A8) as (out & R & H).
  exists out. repeat (split; [assumption|]). intros G ord. specialize (H ord). destruct (executeFile ord out) as [[]| | |]; try exact H. exact (proj1 H).
Qed.
Print Assumptions C94_answer.

(** The random choices always lead to files, if there are enough of them. *)
Theorem C94_ends n ds : ltlText n ds = GMore \/ exists text rest, ltlText n ds = GOk text rest.
Proof. exact (ltlText_outcome n ds). Qed.
Print Assumptions C94_ends.

(** But no test ever compares anything: between the option for explicit strategies and the name of the file, a blank is
    missing, so slugs gets an option that it does not know.  Whatever the process number, the options of the user, the
    number of variables and the random numbers are, each test ends with a failed call of slugs. *)
Theorem C94_tests_refuted pid options n ds :
  ltlFuzzOnce pid options n ds = GMore \/ exists rest, ltlFuzzOnce pid options n ds = GOk SlugsCallFailed rest.
Proof.
  unfold ltlFuzzOnce. destruct (C94_ends n ds) as [->|(text & rest & E)]; [now left|]. rewrite E. right. exists rest. cbn [gbind].
  destruct (C94_answer n ds text rest E) as (_ & _ & _ & _ & out & _ & _ & _ & -> & _).
  assert (X : exitCode (main (tl (words (slugsCommand pid options)))) = Some 1).
  2:{ now rewrite X. }
  apply C32_unlisted. left. intros K.
  set (o := ("--explicitStrategy/tmp/fuzz_" ++ showNat pid ++ ".slugsin")%string).
  assert (W : words o = [o]).
  { unfold o. apply words_noWs. change (noWs ("--explicitStrategy/tmp/fuzz_" ++ showNat pid ++ ".slugsin") = true). rewrite !noWs_app, noWs_show. reflexivity. }
  assert (I : In o (tl (words (slugsCommand pid options)))).
  { replace (slugsCommand pid options) with ("../src/slugs" ++ String " " (String.concat " " options ++ String " " ("--sysInitRoboticsSemantics" ++ String " " (o ++ String " " ("/tmp/fuzz_" ++ showNat pid ++ ".aut")))))%string.
    - rewrite !words_sep, W. change (words "../src/slugs") with ["../src/slugs"]. cbn [app tl]. apply in_or_app. right. apply in_or_app. right. now left.
    - unfold slugsCommand, o. cbn [append]. repeat (f_equal; try (now rewrite ?append_assoc)). }
  assert (L : In o commandLineArguments) by (apply K; split; [exists ("-explicitStrategy/tmp/fuzz_" ++ showNat pid ++ ".slugsin")%string; reflexivity|exact I]).
  unfold o in L. cbn in L. repeat (destruct L as [L|L]; [discriminate L|]). destruct L.
Qed.
Print Assumptions C94_tests_refuted.

(** A random file, its translation, and the failed test; with the blank, slugs would be called as intended. *)
Definition ltlNumbers : list nat :=
  [1; 4; 0; 0; 1; 1; 4; 1; 0; 1; 4; 4; 0; 1; 1; 3; 4; 0; 0; 4; 3; 0; 1; 2; 1; 4; 5; 6; 0; 0; 42]%nat.
Definition ltlNumbersText : string := String.concat nl
  ["LTLSPEC -- Assumptions"; tab ++ "( "; tab ++ tab ++ "TRUE    &  [](e.in0)"; "  &  [](next(e.in1))"; "  &  []<>(s.out1)"; ");";
   "LTLSPEC -- Guarantees"; tab ++ "( "; tab ++ tab ++ "TRUE    &  [](((e.in0)|(!s.out0)))"; "  &  [](((next(s.out2))&(TRUE)))"; ");"; ""]%string.
Example C94_example : ltlText 3 ltlNumbers = GOk ltlNumbersText [42]%nat /\
  ltlFuzzOnce 77 ["--fixedPointRecycling"] 3 ltlNumbers = GOk SlugsCallFailed [42]%nat /\
  main (tl (words (slugsCommand 77 ["--fixedPointRecycling"]))) = UnknownParameter "--explicitStrategy/tmp/fuzz_77.slugsin" /\
  (exists p r, main ["--sysInitRoboticsSemantics"; "--explicitStrategy"; "/tmp/fuzz_77.slugsin"; "/tmp/fuzz_77.aut"] = Execute p r) /\
  ltlText 3 [1; 6]%nat = GMore.
Proof. repeat split; try (vm_compute; reflexivity). do 2 eexists. vm_compute. reflexivity. Qed.
