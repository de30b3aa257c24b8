(** * Specification: games in which some safety assumptions need not hold

    Independent of the model of the tool kResilientRealizabilityChecker.py.  A safety assumption is
    dropped from the game by a choice; instead, every goal of the system counts as reached on
    transitions that violate a dropped assumption.  Hence the system must keep its safety guarantees
    under any number of violations and must reach its goals if the violations stop. *)

From Coq Require Import String Ascii List Bool Arith.
From Verif Require Import FormulaSpec Spec FileSpec.
Import ListNotations.
Local Open Scope list_scope.

(** The file with the declarations of inputs before the declarations of outputs and all formulas. *)
Definition inputsFirst (L : items) : items :=
  map (pair SInput) (linesOf SInput L) ++ map (pair SOutput) (linesOf SOutput L) ++ filter (fun p => formulaSection (fst p)) L.

(** For every line of the section ENV_TRANS whether it is marked by a comment "## Variable limits"
    before it (and after the last line that is not blank and not a comment or header). *)
Fixpoint limitMarks (cur : option section) (limit : bool) (lines : list string) : list bool :=
  match lines with
  | [] => []
  | l :: ls =>
      match strip l with
      | EmptyString => limitMarks cur limit ls
      | String a _ =>
          if (a =? "#")%char then limitMarks cur (limit || String.prefix "## Variable limits" (strip l)) ls
          else if (a =? "[")%char then limitMarks (find (fun s => String.eqb (header s) (strip l)) sections) limit ls
          else match cur with
               | Some SEnvTrans => limit :: limitMarks cur false ls
               | _ => limitMarks cur false ls
               end
      end
  end.
(** The number of assumptions that may be dropped. *)
Definition unmarked (marks : list bool) : nat := count_occ Bool.bool_dec marks false.

(** Every assumption with the choice whether it is dropped; a choice has an entry for every
    assumption that is not marked. *)
Fixpoint choose {A} (marks choice : list bool) (fs : list A) : list (A * bool) :=
  match marks, fs with
  | true :: marks, f :: fs => (f, false) :: choose marks choice fs
  | false :: marks, f :: fs =>
      match choice with
      | b :: choice => (f, b) :: choose marks choice fs
      | [] => (f, false) :: choose marks [] fs
      end
  | _, _ => []
  end.

Definition resilientGame (L : items) (fs : section -> list fml) (marks choice : list bool) : game :=
  let G := file_game L fs in
  let chosen := choose marks choice (fs SEnvTrans) in
  let on f st st' := holds f (valuation st st') in
  mkGame (g_out G) (g_initE G) (g_initS G)
    (fun st st' => forallb (fun p => snd p || on (fst p) st st') chosen)
    (g_safeS G) (g_liveA G)
    (map (fun goal st st' => goal st st' || existsb (fun p => snd p && negb (on (fst p) st st')) chosen) (g_liveG G)).

(** A choice that drops at least the same assumptions. *)
Definition below (x y : list bool) : Prop := Forall2 (fun a b => a = true -> b = true) x y.
