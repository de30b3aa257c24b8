(** * Specification side: weaker specifications and cores

    Independent of the model of the code. *)

From Coq Require Import String List Bool.
From Verif Require Import Spec FormulaSpec FileSpec.
Import ListNotations.

(** The sections of assumptions and of guarantees. *)
Definition assumes (s : section) : bool :=
  match s with SEnvInit | SEnvTrans | SEnvLive => true | _ => false end.
Definition guarantees (s : section) : bool :=
  match s with SSysInit | SSysTrans | SSysLive => true | _ => false end.

(** [L'] demands at most as much from the system as [L]: the same variables, all the assumptions of
    [L] and perhaps more, only guarantees of [L].  The order and the number of occurrences of the
    lines do not matter. *)
Definition demands_less (L L' : items) : Prop :=
  (forall s line, formulaSection s = false -> (In (s, line) L <-> In (s, line) L')) /\
  (forall s line, assumes s = true -> In (s, line) L -> In (s, line) L') /\
  (forall s line, guarantees s = true -> In (s, line) L' -> In (s, line) L).

(** The system can win the game that a file describes, or every strategy of the system fails for
    some inputs.  The formulas of a file are unique (PropsParser.v, C05). *)
Definition file_realizable (L : items) : Prop :=
  exists fs, formulas_of true L fs /\ realizable (file_game L fs).
Definition file_unrealizable (L : items) : Prop :=
  exists fs, formulas_of true L fs /\
    forall f, exists x, ~ objective (file_game L fs) (play (file_game L fs) f x).

(** The lines that a search for a core may drop. *)
Definition droppable (s : section) : bool :=
  match s with SSysTrans | SSysLive => true | _ => false end.
(** [L'] is a minimal unrealizable core of [L]: a part of it that is unrealizable but that becomes
    realizable if any of the lines that may be dropped is removed. *)
Definition core (drop : section -> bool) (L L' : items) : Prop :=
  (forall s, drop s = false -> linesOf s L' = linesOf s L) /\
  (forall s line, In (s, line) L' -> In (s, line) L) /\
  file_unrealizable L' /\
  (forall A s line B, L' = (A ++ (s, line) :: B)%list -> drop s = true -> file_realizable (A ++ B)%list).
