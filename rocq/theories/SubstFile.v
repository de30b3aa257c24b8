(** * Model: tools/StructuredSlugsParser/integerVariableSubstitutor.py, the files

    Modelled: performReplacement (lines 453-531), with Subst.v for the lines with properties.  Files as for
    StructFile.v.  [Raise]: an exception ends the program, maybe after a part of the text has been printed. *)

From Coq Require Import String Ascii List Bool Arith NArith ZArith.
From Verif Require Import FormulaSpec Parser StructuredSpec StructGrammar Structured StructParse StructFile Subst.
Import ListNotations.
Local Open Scope string_scope.

(** replacementDataDefinitions and replacementDataExpressions, lines 456-457. *)
Record replacements : Type := mkRepl {
  definitions : string -> option string;
  expressions : string -> option (string * string)
}.
Definition noReplacements : replacements := mkRepl (fun _ => None) (fun _ => None).
Definition setKey {A} (d : string -> option A) (key : string) (v : A) : string -> option A :=
  fun k => if String.eqb k key then Some v else d k.
(** Lines 460-466 for one line. *)
Definition readReplacement (r : replacements) (l : string) : replacements :=
  let line := trim l in
  if String.eqb line "" || firstIs "#" line then r
  else match splitChar "," line with
       | [x; d] => mkRepl (setKey (definitions r) x d) (expressions r)
       | [x; p; m] => mkRepl (definitions r) (setKey (expressions r) x (p, m))
       | _ => r
       end.
(** Lines 458-466. *)
Definition readReplacements (content : string) : replacements := fold_left readReplacement (getlines content) noReplacements.

(** Lines 469-487; lines[mode] is a KeyError for an unknown section. *)
Fixpoint readSpecification (mode : string) (lines : lineDict) (ls : list string) : pyres lineDict :=
  match ls with
  | [] => Ret lines
  | l :: ls =>
      let line := trim l in
      if String.eqb line "" then readSpecification mode lines ls
      else if firstIs "[" line then readSpecification line lines ls
      else if String.eqb mode "" && firstIs "#" line then readSpecification mode lines ls
      else if existsb (String.eqb mode) sectionKeys then readSpecification mode (pushLine lines mode line) ls
      else Raise
  end.

(** Lines 499-501 for one line. *)
Definition declaredNames (line : string) : list string := if hasChar ":" line then [] else [line; line ++ "'"].
(** booleanAPs after lines 494-508. *)
Definition declaredBooleans (lines : lineDict) : list string := flat_map (fun k => flat_map declaredNames (lines k)) ioKeys.
(** Lines 502-508: what is printed for the line. *)
Definition redeclare (r : replacements) (line : string) : string :=
  if firstIs "#" line then line
  else match definitions r line with Some d => d | None => line end.
(** Lines 513-531. *)
Fixpoint substituteSections (bools : list string) (r : replacements) (lines : lineDict) (keys : list string) : pyres (list string) :=
  match keys with
  | [] => Ret []
  | k :: keys =>
      pybind (pyMap (substituteLine bools (expressions r)) (lines k)) (fun ls =>
      pybind (substituteSections bools r lines keys) (fun rest => Ret (printSection k ls ++ rest)%list))
  end.
(** performReplacement, lines 453-531: what is printed. *)
Definition performReplacement (inputContent replacementContent : string) : pyres string :=
  let r := readReplacements replacementContent in
  pybind (readSpecification "" emptyDict (getlines inputContent)) (fun lines =>
  pybind (substituteSections (declaredBooleans lines) r lines propertyKeys) (fun ls =>
    Ret (String.concat "" (map (fun l => l ++ String "010" "")
      (flat_map (fun k => printSection k (map (redeclare r) (lines k))) ioKeys ++ ls)%list)))).
