(** * Specification side: files with transition costs

    What a reader of the cost file of --twoDimensionalCost sees.  Independent of the model of the code
    except for the reader of formulas, which is a parameter. *)

From Coq Require Import String Ascii ZArith List.
From Verif Require Import Spec.
Import ListNotations.

Fixpoint no_space (s : string) : Prop :=
  match s with EmptyString => True | String a r => a <> " "%char /\ no_space r end.

(** A line is a number and a formula, separated by the first space; in a line without a space, the whole
    line is both of them.  Lines that are empty or begin with # do not count. *)
Definition entry (line number rest : string) : Prop :=
  (exists a r, line = String a r /\ a <> "#"%char) /\
  ((no_space number /\ line = (number ++ String " " rest)%string) \/ (no_space line /\ number = line /\ rest = line)).

(** A transition has a cost by one of the lines. *)
Definition listed (value : string -> option Z) (meaning : string -> (state -> state -> Prop) -> Prop)
    (lines : list string) (k : Z) (s t : state) : Prop :=
  exists line number rest phi, In line lines /\ entry line number rest /\ value number = Some k /\
    meaning rest phi /\ phi s t.
