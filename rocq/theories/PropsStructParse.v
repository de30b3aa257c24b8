(** * Properties of reading structured slugs lines (C80) *)

From Coq Require Import String Ascii List Bool Arith NArith ZArith Lia.
From Verif Require Import FormulaSpec StructuredSpec StructGrammar Structured StructTables StructParse StructItems StructParseProofs StructTreeProofs StructReadProofs.
Import ListNotations.
Local Open Scope string_scope.

(** A line is taken for a formula exactly if the grammar reads it as that formula. *)
Theorem C80_reads : forall bools line f, parseLTL bools line = Some f <-> reads bools line f.
Proof. exact parseLTL_spec. Qed.
Print Assumptions C80_reads.

(** The grammar is unambiguous: a line has at most one reading. *)
Theorem C80_unique : forall bools line f g, reads bools line f -> reads bools line g -> f = g.
Proof. intros bools line f g Hf Hg. apply C80_reads in Hf, Hg. rewrite Hf in Hg. now injection Hg. Qed.
Print Assumptions C80_unique.

(** The parser stops for every sequence of tokens, after at most 24 steps for each token and for the end,
    and it never takes more from its stack than there is or looks up an entry that its tables do not have. *)
Theorem C80_total : forall input, (exists stack, parse input = Parsed stack) \/ parse input = ParseError.
Proof.
  intros input. destruct (parse_total input) as [H1 H2]. destruct (parse input) as [st| | |]; try (exfalso; auto; fail); eauto.
Qed.
Print Assumptions C80_total.

(** Conjunctions bind stronger than disjunctions, these stronger than implications; a name that is
    not Boolean is a number; the operators for the next step have two notations. *)
Example C80_example : let bools := ["a"; "a'"; "b"] in
  reads bools "a | b & ! a' -> x'+ 2 <=y | next(x != 3)"
    (SImp (SOr (SAssign "a") (SAnd (SAssign "b") (SUnary ONot (SAssign "a'"))))
          (SOr (SCalc (Add (NumID "x'") (Numeral 2)) CLe (NumID "y")) (SUnary ONext (SBrackets (SCalc (NumID "x") CNe (Numeral 3)))))) /\
  reads bools "a -> b -> ()a" (SImp (SImp (SAssign "a") (SAssign "b")) (SUnary ONext (SAssign "a"))) /\
  (forall f, ~ reads bools "a b" f) /\ (forall f, ~ reads bools "x - 1 > 0" f) /\ (forall f, ~ reads bools "x" f).
Proof.
  split; [|split; [|split; [|split]]].
  1,2: apply C80_reads; vm_compute; reflexivity.
  all: intros f H; apply C80_reads in H; vm_compute in H; discriminate.
Qed.
