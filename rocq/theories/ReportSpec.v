(** * Specification: reports about a specification

    Independent of the model of createSpecificationReport.py. *)

From Coq Require Import String Ascii List Bool Arith ZArith.
From Verif Require Import FormulaSpec FileSpec Spec.
Import ListNotations.
Local Open Scope string_scope.

(** ** Winning by making the environment violate its assumptions *)

(** The system has a strategy from position [s] with which it satisfies its safety guarantees as long as the
    environment satisfies its safety assumptions, and with which no play satisfies all assumptions. *)
Definition canFalsify (g : game) (s : state) : Prop :=
  exists f : strategy, forall x : nat -> state, let pi := play_from g f s x in
    (forall n, (forall m, m <= n -> g_safeE g (pi m) (pi (S m)) = true) -> g_safeS g (pi n) (pi (S n)) = true) /\
    ~ ((forall n, g_safeE g (pi n) (pi (S n)) = true) /\ forall p, In p (g_liveA g) -> inf_often p pi).

(** ** Text in a web page *)

(** How a browser shows a text with the three entities. *)
Fixpoint htmlShown (s : string) : string :=
  match s with
  | EmptyString => ""
  | String "&" (String "a" (String "m" (String "p" (String ";" s)))) => String "&" (htmlShown s)
  | String "&" (String "l" (String "t" (String ";" s))) => String "<" (htmlShown s)
  | String "&" (String "g" (String "t" (String ";" s))) => String ">" (htmlShown s)
  | String a s => String a (htmlShown s)
  end.
(** The lines of a file, with their line ends; only the last line may have none. *)
Definition newlineText : string := String "010" "".
Definition noNewline (l : string) : Prop := ~ In "010"%char (list_ascii_of_string l).
Inductive textLines : string -> list string -> Prop :=
| TLnil : textLines "" []
| TLlast l : l <> "" -> noNewline l -> textLines l [l]
| TLcons l s ls : noNewline l -> textLines s ls -> textLines (l ++ newlineText ++ s) ((l ++ newlineText) :: ls).
Definition blankLine (l : string) : Prop := strip l = "".
(** The line after which nothing is shown. *)
Definition endMarker : string := "# --- End of the specification for the report".
(** Blank lines are shown without the white space in them. *)
Definition shownLine (l : string) : string := if String.eqb (strip l) "" then newlineText else l.
