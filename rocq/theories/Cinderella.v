(** * Model: examples/benchmark_generators/cinderella_stepmother.py

    Modelled: makeBenchmarkFile up to line 107, that is, the structured slugs file for a configuration.  Its translation
    by compiler.py (line 112) is [StructFile.performConversion].  Not modelled: the names of the files, and the
    translation to circuits in lines 117-148, of which the first step is modelled in Aig.v and the others call programs
    that are not part of the repository.  The numbers of a configuration are natural numbers. *)

From Coq Require Import String Ascii List Arith ZArith.
From Verif Require Import FormulaSpec StructuredSpec Explicit.
Import ListNotations.
Local Open Scope string_scope.

Section CONFIGURATION.
  (** nofBuckets, cinderellaPower, bucketCapacity and stepmotherPower, lines 69-72. *)
  Variables n c cap p : nat.

  (** Lines 96-97. *)
  Definition inLines : list string := map (fun i => "x" ++ showNat i ++ ":0..." ++ showNat p) (seq 0 n).
  Definition outLines : list string := map (fun i => "y" ++ showNat i ++ ":0..." ++ showNat cap) (seq 0 n).
  (** Line 79 with line 98. *)
  Definition emptyLine : string := "e:0..." ++ showZ (Z.of_nat n - 1).
  (** Line 99. *)
  Definition restrictionLine : string := String.concat "+" (map (fun i => "x" ++ showNat i ++ "'") (seq 0 n)) ++ " <= " ++ showNat p.
  (** Lines 100-101. *)
  Definition envInit : list string := map (fun i => "x" ++ showNat i ++ " = 0") (seq 0 n).
  Definition sysInit : list string := map (fun i => "y" ++ showNat i ++ " = 0") (seq 0 n).
  (** The part of lines 102 and 103 in brackets: bucket i is emptied. *)
  Definition emptiedText (i : nat) : string :=
    "((e<=" ++ showNat i ++ " & e+" ++ showNat c ++ " > " ++ showNat i ++ ") | (e+" ++ showZ (Z.of_nat c - 1) ++ " >= " ++ showNat (i + n) ++ "))".
  (** Lines 102-103. *)
  Definition sysTransA : list string :=
    map (fun i => "!" ++ emptiedText i ++ " -> y" ++ showNat i ++ "' = y" ++ showNat i ++ " + x" ++ showNat i ++ "'") (seq 0 n).
  Definition sysTransB : list string := map (fun i => emptiedText i ++ " -> y" ++ showNat i ++ "' = x" ++ showNat i ++ "'") (seq 0 n).

  Definition lines (ls : list string) : string := String.concat nl ls.
  (** The text in lines 74-104. *)
  Definition cinderellaText : string :=
    "[INPUT]" ++ nl ++ lines inLines ++ nl ++ nl ++
    "[OUTPUT]" ++ nl ++ lines outLines ++ nl ++ emptyLine ++ nl ++ nl ++
    "[ENV_TRANS]" ++ nl ++ restrictionLine ++ nl ++ nl ++
    "[ENV_INIT]" ++ nl ++ lines envInit ++ nl ++ nl ++
    "[SYS_INIT]" ++ nl ++ lines sysInit ++ nl ++ nl ++
    "[SYS_TRANS]" ++ nl ++ lines sysTransA ++ nl ++ lines sysTransB ++ nl ++ nl.
End CONFIGURATION.
