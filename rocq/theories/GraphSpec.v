(** * Specification: strategies as graphs for GraphViz

    Independent of the model of the tool explicitStrategyToGraphviz.py. *)

From Coq Require Import String Ascii List Bool Arith.
From Verif Require Import FormulaSpec FileSpec AutSpec DecoderSpec.
Import ListNotations.
Local Open Scope string_scope.

Definition quoted (s : string) : string := String "034" "" ++ s ++ String "034" "".
Definition bitText (b : bool) : string := if b then "1" else "0".
(** One line for every state, with the values of the variables and the number of the goal, and one line
    for every transition. *)
Definition vertexLine (v : node) : string :=
  quoted (showNumber (n_num v)) ++ " [shape=box,label=" ++ quoted (String.concat "" (map bitText (n_vals v)) ++ "/" ++ showNumber (n_rank v)) ++ "];" ++ newline.
Definition edgeLine (v : node) (n : nat) : string := quoted (showNumber (n_num v)) ++ " -> " ++ quoted (showNumber n) ++ ";" ++ newline.
Definition dotText (names : list string) (A : list node) : string :=
  match A with
  | [] => "digraph { " ++ quoted "Empty implementation" ++ "; }" ++ newline
  | _ =>
      "digraph {" ++ newline ++ "node [shape=tab] " ++ quoted (String.concat "," names) ++ ";" ++ newline ++
      String.concat "" (map vertexLine A) ++ String.concat "" (flat_map (fun v => map (edgeLine v) (n_succ v)) A) ++ "}" ++ newline
  end.
(** The name does not contain the characters that separate names and values in a strategy. *)
Definition separable (x : string) : Prop :=
  strip x = x /\ forall a, In a (list_ascii_of_string x) -> ~ In a ["<"; ","; ":"; "010"]%char.
(** The declared variables of a file. *)
Definition variableNames (L : items) : list string :=
  flat_map (fun p => match fst p with SInput | SOutput => [snd p] | _ => [] end) L.
