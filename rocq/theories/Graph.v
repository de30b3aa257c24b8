(** * Model: tools/explicitStrategyToGraphviz.py

    Reads an explicit strategy and prints a graph.  The input is a text with the newline characters of
    the file; printing to stdout is the result.  What is printed before an exception is not modelled.
    The input must not contain the characters 28 to 31, which Python 3 treats as white space or line
    ends, or carriage returns. *)

From Coq Require Import String Ascii List Bool Arith.
From Verif Require Import FormulaSpec Parser Structured StructFile Decoder.
Import ListNotations.
Local Open Scope string_scope.

(** Dictionaries: lists of keys and values, in the order of insertion. *)
Fixpoint put {V} (k : string) (v : V) (d : list (string * V)) : list (string * V) :=
  match d with
  | [] => [(k, v)]
  | (k', v') :: d => if String.eqb k' k then (k, v) :: d else (k', v') :: put k v d
  end.
Fixpoint get {V} (k : string) (d : list (string * V)) : option V :=
  match d with [] => None | (k', v') :: d => if String.eqb k' k then Some v' else get k d end.

(** The variables of the script, lines 8-10 and line 20. *)
Record gstate : Type := mkG {
  propositions : option (list string);
  stateNo : option string;
  states : list (string * (string * list string));
  transitions : list (string * list string)
}.
(** Lines 25-27: the text between the angle brackets; None: an assertion fails. *)
Fixpoint upToGt (s : string) : option string :=
  match s with
  | EmptyString => None
  | String ">" EmptyString => Some ""
  | String a s => option_map (String a) (upToGt s)
  end.
(** Lines 27-29; None: an index error. *)
Fixpoint pairsOf (parts : list (list string)) : option (list string * list string) :=
  match parts with
  | [] => Some ([], [])
  | (a :: b :: _) :: parts => match pairsOf parts with Some (xs, ys) => Some (a :: xs, b :: ys) | None => None end
  | _ => None
  end.
Fixpoint listEqb (a b : list string) : bool :=
  match a, b with [], [] => true | x :: a, y :: b => String.eqb x y && listEqb a b | _, _ => false end.
(** Lines 13-35. *)
Definition readState (line : string) (g : gstate) : pyres gstate :=
  if String.prefix "State" line then
    match cutAt "<" line with
    | Some (part1, rest) =>
        if hasChar "<" rest then Raise
        else
          match splitChar " " part1 with
          | _ :: number :: _ :: _ :: rank :: _ =>
              match trim (String "<" rest) with
              | String _ t =>
                  match upToGt t with
                  | Some inner =>
                      match pairsOf (map (fun a => splitChar ":" (trim a)) (splitChar "," inner)) with
                      | Some (these, values) =>
                          if match propositions g with Some ps => listEqb ps these | None => true end then
                            Ret (mkG (Some these) (Some number) (put number (rank, values) (states g)) (transitions g))
                          else Raise
                      | None => Raise
                      end
                  | None => Raise
                  end
              | EmptyString => Raise
              end
          | _ => Raise
          end
    | None => Raise
    end
  else Ret g.
(** s[n:] *)
Fixpoint dropChars (n : nat) (s : string) : string :=
  match n, s with S n, String _ s => dropChars n s | _, _ => s end.
(** Lines 36-39. *)
Definition readSuccessors (line : string) (g : gstate) : pyres gstate :=
  if String.prefix "With successors : " (trim line) then
    match stateNo g with
    | Some k => Ret (mkG (propositions g) (stateNo g) (states g) (put k (map trim (splitChar "," (dropChars 18 (trim line)))) (transitions g)))
    | None => Raise
    end
  else Ret g.
(** Lines 12-39. *)
Fixpoint readGraph (lines : list string) (g : gstate) : pyres gstate :=
  match lines with
  | [] => Ret g
  | l :: lines => pybind (readState l g) (fun g => pybind (readSuccessors l g) (readGraph lines))
  end.
(** Quotation marks, and print. *)
Definition q : string := String "034" "".
Definition line (parts : list string) : string := String.concat "" parts ++ String "010" "".
(** Lines 52-54. *)
Fixpoint edges (sts : list (string * (string * list string))) (trans : list (string * list string)) : pyres string :=
  match sts with
  | [] => Ret ""
  | (state, _) :: sts =>
      match get state trans with
      | Some bs => pybind (edges sts trans) (fun rest => Ret (String.concat "" (map (fun b => line [q; state; q; " -> "; q; b; q; ";"]) bs) ++ rest))
      | None => Raise
      end
  end.
(** Lines 41-55. *)
Definition graphviz (text : string) : pyres string :=
  pybind (readGraph (readlinesKeep text) (mkG None None [] [])) (fun g =>
    match states g, propositions g with
    | [], _ => Ret (line ["digraph { "; q; "Empty implementation"; q; "; }"])
    | sts, Some ps =>
        pybind (edges sts (transitions g)) (fun es =>
          Ret (line ["digraph {"] ++ line ["node [shape=tab] "; q; String.concat "," ps; q; ";"] ++
               String.concat "" (map (fun '(state, (rank, values)) => line [q; state; q; " [shape=box,label="; q; String.concat "" values; "/"; rank; q; "];"]) sts) ++
               es ++ line ["}"]))
    | _, None => Raise
    end).
