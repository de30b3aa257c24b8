(** * Specification: the file with the replacements of integer variables

    Independent of the model of integerVariableSubstitutor.py. *)

From Coq Require Import String Ascii List Bool Arith NArith ZArith.
From Verif Require Import FormulaSpec FileSpec StructFileSpec.
Import ListNotations.
Local Open Scope string_scope.

(** The line is no comment and has two parts: the declaration [x] is replaced by [d]. *)
Definition definitionLine (line x d : string) : Prop :=
  strip line = x ++ "," ++ d /\ ~ occursIn "," x /\ ~ occursIn "," d /\ (forall r, strip line <> String "#" r).
(** The line is no comment and has three parts: [x] is replaced by the difference of the other two. *)
Definition expressionLine (line x : string) (pm : string * string) : Prop :=
  strip line = x ++ "," ++ fst pm ++ "," ++ snd pm /\ ~ occursIn "," x /\ ~ occursIn "," (fst pm) /\ ~ occursIn "," (snd pm) /\
  (forall r, strip line <> String "#" r).
(** The last line for [x] counts. *)
Definition lastEntry {A} (entry : string -> string -> A -> Prop) (lines : list string) (x : string) (v : A) : Prop :=
  exists before line after, lines = (before ++ line :: after)%list /\ entry line x v /\ forall l v', In l after -> ~ entry l x v'.

(** The text is not blank and starts neither a comment nor a section. *)
Definition startsPlain (text : string) : Prop := exists a r, strip text = String a r /\ a <> "["%char /\ a <> "#"%char.
(** The names of Boolean values that [lines] declare, also for next values. *)
Definition declaresBoolean (lines : list string) (b : string) : Prop :=
  exists x, In x lines /\ ~ occursIn ":" x /\ (b = x \/ b = x ++ "'").
