(** * Model: tools/analyzeStuckAtConstant.py

    Tests for every output of a realizable structured specification (every input of an unrealizable one)
    which constant values do not change the verdict.  Not modelled: messages on stderr and the
    punctuation of the report.  Files as for StructFile.v. *)

From Coq Require Import String Ascii List Bool Arith ZArith.
From Verif Require Import Synth Parser Execute StructuredSpec Structured StructFile.
Import ListNotations.
Local Open Scope string_scope.

(** The keys in line 27. *)
Definition stuckKeys : list string :=
  ["[ENV_TRANS]"; "[ENV_INIT]"; "[INPUT]"; "[OUTPUT]"; "[SYS_TRANS]"; "[SYS_INIT]"; "[ENV_LIVENESS]"; "[SYS_LIVENESS]"].
(** readSlugsFile, lines 24-44; lines[mode] is a KeyError for an unknown section. *)
Fixpoint readSlugsFile (mode : string) (lines : lineDict) (ls : list string) : pyres lineDict :=
  match ls with
  | [] => Ret lines
  | l :: ls =>
      let line := trim l in
      if String.eqb line "" then readSlugsFile mode lines ls
      else if firstIs "[" line then readSlugsFile line lines ls
      else if String.eqb mode "" && firstIs "#" line then readSlugsFile mode lines ls
      else if existsb (String.eqb mode) stuckKeys then readSlugsFile mode (pushLine lines mode line) ls
      else Raise
  end.

(** writeSlugsFile, lines 50-57: the content of the file. *)
Definition writeKeys : list string :=
  ["[INPUT]"; "[OUTPUT]"; "[ENV_TRANS]"; "[ENV_INIT]"; "[SYS_TRANS]"; "[SYS_INIT]"; "[ENV_LIVENESS]"; "[SYS_LIVENESS]"].
Definition writeSlugsFile (lines : lineDict) : string :=
  String.concat "" (map (fun l => l ++ String "010" "") (flat_map (fun a => a :: lines a ++ [""])%list writeKeys)).

(** checkRealizability, lines 69-104: the compiler with --thorougly, then slugs without options. *)
Definition checkRealizability (ord : nat -> bool) (text : string) : pyres bool :=
  pybind (performConversion true text) (fun compiled =>
    match executeFile ord compiled with
    | POk Realizable => Ret true
    | POk Unrealizable => Ret false
    | _ => Raise
    end).

(** Lines 165-167 and 175-182: the modified specification. *)
Definition modifiedText (original : lineDict) (categoryB categoryC lineB lineC : string) : string :=
  writeSlugsFile (pushLine (pushLine original categoryB lineB) categoryC lineC).

(** The loops over the values, lines 164-171 and 174-186; a value is given with its text and the two lines. *)
Fixpoint testValues (ord : nat -> bool) (original : lineDict) (categoryB categoryC : string) (isRealizable : bool)
    (values : list (string * (string * string))) : pyres (list string) :=
  match values with
  | [] => Ret []
  | (shown, (lineB, lineC)) :: values =>
      pybind (checkRealizability ord (modifiedText original categoryB categoryC lineB lineC)) (fun r =>
      pybind (testValues ord original categoryB categoryC isRealizable values) (fun rest =>
        Ret (if Bool.eqb r isRealizable then shown :: rest else rest)))
  end.

(** xrange(lo,hi+1). *)
Definition zrange (lo hi : Z) : list Z := map (fun k => lo + Z.of_nat k)%Z (seq 0 (Z.to_nat (hi - lo + 1))).
(** The variable in a line, lines 140-163 and 173, and its values with their lines, lines 164-167 and
    174-181. *)
Definition valuesOfLine (line : string) : pyres (string * list (string * (string * string))) :=
  if hasChar ":" line then
    match map trim (splitChar ":" line) with
    | [variable; range] =>
        match splitDots3 range with
        | [low; high] =>
            match pyInt low, pyInt high with
            | Some minValue, Some maxValue =>
                if (maxValue <? minValue)%Z then Raise
                else Ret (variable, map (fun value => (showZ value, (variable ++ "'=" ++ showZ value, variable ++ "=" ++ showZ value))) (zrange minValue maxValue))
            | _, _ => Raise
            end
        | _ => Raise
        end
    | _ => Raise
    end
  else
    let variable := trim line in
    Ret (variable, [("False", ("! " ++ variable ++ "'", "! " ++ variable)); ("True", (variable ++ "'", variable))]).

(** Lines 130-203: for every line of the section the variable and nonDifferenceCausingValues. *)
Fixpoint analyzeLines (ord : nat -> bool) (original : lineDict) (categoryB categoryC : string) (isRealizable : bool)
    (ls : list string) : pyres (list (string * list string)) :=
  match ls with
  | [] => Ret []
  | l :: ls =>
      if firstIs "#" (trim l) then analyzeLines ord original categoryB categoryC isRealizable ls
      else
        pybind (valuesOfLine (trim l)) (fun '(variable, values) =>
        pybind (testValues ord original categoryB categoryC isRealizable values) (fun good =>
        pybind (analyzeLines ord original categoryB categoryC isRealizable ls) (fun rest =>
          Ret ((variable, good) :: rest))))
  end.

(** analyzeStuckAtConstant, lines 110-203: the verdict and the report. *)
Definition analyzeStuckAtConstant (ord : nat -> bool) (content : string) : pyres (bool * list (string * list string)) :=
  pybind (readSlugsFile "" emptyDict (getlines content)) (fun original =>
  pybind (checkRealizability ord content) (fun isRealizable =>
    let '(categoryA, categoryB, categoryC) :=
      if isRealizable then ("[OUTPUT]", "[SYS_TRANS]", "[SYS_INIT]") else ("[INPUT]", "[ENV_TRANS]", "[ENV_INIT]") in
    pybind (analyzeLines ord original categoryB categoryC isRealizable (original categoryA)) (fun report =>
      Ret (isRealizable, report)))).
