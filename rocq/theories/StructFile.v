(** * Model: performConversion in tools/StructuredSlugsParser/compiler.py

    Translates a structured slugs file.  Not modelled: messages.  For files without carriage returns,
    without the characters 28 to 31, and with character codes below 128; then Python's strip
    removes the same characters as boost::trim, and readlines cuts at newlines. *)

From Coq Require Import String Ascii List Bool Arith NArith ZArith.
From Verif Require Import FormulaSpec Parser StructuredSpec Structured StructParse.
Import ListNotations.
Local Open Scope string_scope.

(** ** Strings *)

Definition firstIs (c : ascii) (s : string) : bool := match s with String a _ => Ascii.eqb a c | EmptyString => false end.
Definition hasChar (c : ascii) (s : string) : bool := existsb (Ascii.eqb c) (list_ascii_of_string s).
(** s.split(c). *)
Fixpoint splitChar (c : ascii) (s : string) : list string :=
  match s with
  | EmptyString => [""]
  | String a s =>
      if Ascii.eqb a c then "" :: splitChar c s
      else match splitChar c s with p :: ps => String a p :: ps | [] => [] end
  end.
(** s.split("..."). *)
Fixpoint splitDots3 (s : string) : list string :=
  match s with
  | EmptyString => [""]
  | String "." (String "." (String "." s)) => "" :: splitDots3 s
  | String a s => match splitDots3 s with p :: ps => String a p :: ps | [] => [] end
  end.
(** int(s); [None]: ValueError.  (Recent versions of Python also reject more than 4300 digits.) *)
Fixpoint intDigits (afterDigit : bool) (acc : N) (s : string) : option N :=
  match s with
  | EmptyString => if afterDigit then Some acc else None
  | String a s =>
      if isDigit a then intDigits true (10 * acc + digitVal a)%N s
      else if Ascii.eqb a "_" && afterDigit then intDigits false acc s
      else None
  end.
Definition pyInt (s : string) : option Z :=
  match trim s with
  | String "-" s => option_map (fun n => (- Z.of_N n)%Z) (intDigits false 0 s)
  | String "+" s => option_map Z.of_N (intDigits false 0 s)
  | s => option_map Z.of_N (intDigits false 0 s)
  end.

(** ** Reading the sections, lines 486-503 *)

Definition lineDict : Type := string -> list string.
Definition emptyDict : lineDict := fun _ => [].
Definition pushLine (d : lineDict) (key line : string) : lineDict :=
  fun k => if String.eqb k key then (d k ++ [line])%list else d k.
(** The keys in line 488. *)
Definition sectionKeys : list string :=
  ["[ENV_TRANS]"; "[ENV_INIT]"; "[INPUT]"; "[OUTPUT]"; "[SYS_TRANS]"; "[SYS_INIT]"; "[ENV_LIVENESS]"; "[SYS_LIVENESS]";
   "[OBSERVABLE_INPUT]"; "[UNOBSERVABLE_INPUT]"; "[CONTROLLABLE_INPUT]"].
(** Lines 490-501; lines[mode] is a KeyError for an unknown section. *)
Fixpoint readSections (mode : string) (lines : lineDict) (ls : list string) : pyres lineDict :=
  match ls with
  | [] => Ret lines
  | l :: ls =>
      let line := trim l in
      if firstIs "[" line then readSections line lines ls
      else if String.eqb mode "" then readSections mode lines ls
      else if existsb (String.eqb mode) sectionKeys then readSections mode (pushLine lines mode line) ls
      else Raise
  end.

(** ** Declarations, lines 505-590 *)

Record convState : Type := mkConv {
  translatedIOLines : lineDict;
  booleanAPs : list string;
  numberAPLimits : limits; (* the latest declaration first; translatedNames follows from it *)
  propertyLines : lineDict
}.
Definition ioKeys : list string := ["[INPUT]"; "[OUTPUT]"; "[OBSERVABLE_INPUT]"; "[UNOBSERVABLE_INPUT]"; "[CONTROLLABLE_INPUT]"].
Definition pushAll (d : lineDict) (key : string) (ls : list string) : lineDict := fold_left (fun d l => pushLine d key l) ls d.
(** variableType.endswith("INPUT]"), line 559: all keys but one. *)
Definition destination (variableType : string) : string := if String.eqb variableType "[OUTPUT]" then "SYS" else "ENV".

(** Lines 555-583. *)
Definition addLimits (thoroughly : bool) (variableType x : string) (minValue maxValue : Z) (lines : lineDict) : lineDict :=
  let limitDiff := (maxValue - minValue + 1)%Z in
  let names := translatedNames x minValue maxValue in
  if (2 ^ Z.of_nat (nofBits minValue maxValue) =? limitDiff)%Z then lines
  else
    let init := String.concat " " (limitTokens limitDiff 0 names ["0"]) in
    let next := String.concat " " (limitTokens limitDiff 0 (map (fun w => w ++ "'") names) ["0"]) in
    let comment (y : string) := "## Variable limits: " ++ showZ minValue ++ "<=" ++ y ++ "<=" ++ showZ maxValue in
    let initKey := "[" ++ destination variableType ++ "_INIT]" in
    let transKey := "[" ++ destination variableType ++ "_TRANS]" in
    let lines := pushAll lines initKey [comment x; init] in
    let lines := if thoroughly then pushAll lines transKey [comment x; init] else lines in
    pushAll lines transKey [comment (x ++ "'"); next].

(** Lines 513-590 for one line. *)
Definition declareLine (thoroughly : bool) (variableType line : string) (st : convState) : pyres convState :=
  if String.eqb line "" || firstIs "#" line then
    Ret (mkConv (pushLine (translatedIOLines st) variableType line) (booleanAPs st) (numberAPLimits st) (propertyLines st))
  else if hasChar "'" line then Raise
  else if hasChar "@" line then Raise
  else if hasChar ":" line then
    match map trim (splitChar ":" line) with
    | [variable; range] =>
        match splitDots3 range with
        | [low; high] =>
            match pyInt low, pyInt high with
            | Some minValue, Some maxValue =>
                if (maxValue <? minValue)%Z then Raise
                else
                  let names := translatedNames variable minValue maxValue in
                  Ret (mkConv (pushAll (translatedIOLines st) variableType names)
                    (booleanAPs st ++ names)%list
                    ((variable, (minValue, maxValue)) :: numberAPLimits st)
                    (addLimits thoroughly variableType variable minValue maxValue (propertyLines st)))
            | _, _ => Raise
            end
        | _ => Raise
        end
    | _ => Raise
    end
  else Ret (mkConv (pushLine (translatedIOLines st) variableType line) (booleanAPs st ++ [line; (line ++ "'")%string])%list
    (numberAPLimits st) (propertyLines st)).
Fixpoint declareLines (thoroughly : bool) (variableType : string) (ls : list string) (st : convState) : pyres convState :=
  match ls with
  | [] => Ret st
  | l :: ls => pybind (declareLine thoroughly variableType l st) (declareLines thoroughly variableType ls)
  end.
(** Lines 511-512.  The loop does not change the lists that it goes through. *)
Fixpoint declareAll (thoroughly : bool) (lines : lineDict) (keys : list string) (st : convState) : pyres convState :=
  match keys with
  | [] => Ret st
  | k :: keys => pybind (declareLines thoroughly k (lines k) st) (declareAll thoroughly lines keys)
  end.

(** ** Properties, lines 605-626 *)

(** Lines 611-625 for one line. *)
Definition convertLine (booleanAPs : list string) (D : limits) (a : string) : pyres string :=
  if String.eqb (trim a) "" || firstIs "#" (trim a) then Ret a
  else if isValidRecursiveSlugsProperty booleanAPs (splitChar " " (trim a)) then Ret a
  else match parseLTL booleanAPs a with
       | Some f => translate D f
       | None => Raise
       end.
Fixpoint convertLines (booleanAPs : list string) (D : limits) (ls : list string) : pyres (list string) :=
  match ls with
  | [] => Ret []
  | a :: ls => pybind (convertLine booleanAPs D a) (fun b => pybind (convertLines booleanAPs D ls) (fun bs => Ret (b :: bs)))
  end.
Definition propertyKeys : list string := ["[ENV_TRANS]"; "[ENV_INIT]"; "[SYS_TRANS]"; "[SYS_INIT]"; "[ENV_LIVENESS]"; "[SYS_LIVENESS]"].
(** Lines 596-600 and 607-626: a section with its lines, unless it is empty. *)
Definition printSection (key : string) (ls : list string) : list string :=
  match ls with [] => [] | _ => (key :: ls ++ [""])%list end.
Fixpoint convertSections (st : convState) (keys : list string) : pyres (list string) :=
  match keys with
  | [] => Ret []
  | k :: keys =>
      pybind (convertLines (booleanAPs st) (numberAPLimits st) (propertyLines st k)) (fun ls =>
      pybind (convertSections st keys) (fun rest => Ret (printSection k ls ++ rest)%list))
  end.

(** performConversion: what is printed for a file with the given content.  [Raise]: an exception ends the
    program, maybe after a part of the text has been printed. *)
Definition performConversion (thoroughly : bool) (content : string) : pyres string :=
  pybind (readSections "" emptyDict (getlines content)) (fun lines =>
  pybind (declareAll thoroughly lines ioKeys (mkConv emptyDict [] [] lines)) (fun st =>
  pybind (convertSections st propertyKeys) (fun ls =>
    Ret (String.concat "" (map (fun l => l ++ String "010" "")
      (flat_map (fun k => printSection k (translatedIOLines st k)) ioKeys ++ ls)%list))))).
