(** * Model: tools/explicitImplementationIntegerDecoder.py

    Rewrites the state labels of an explicit strategy, so that the bits of an integer variable become
    its value.  Texts are strings with the newline characters of the file; printing to stdout is the
    result.  What is printed before an exception is not modelled. *)

From Coq Require Import String Ascii List Bool Arith ZArith.
From Verif Require Import StructuredSpec Structured StructFile.
Import ListNotations.
Local Open Scope string_scope.

(** sys.stdin.readlines(): the lines with their newline characters, line 8. *)
Fixpoint readlinesKeep (s : string) : list string :=
  match s with
  | EmptyString => []
  | String a s =>
      if Ascii.eqb a "010" then String a "" :: readlinesKeep s
      else match readlinesKeep s with [] => [String a ""] | l :: ls => String a l :: ls end
  end.
(** The parts before and after the first [c], for line.index(c), lines 10-13. *)
Fixpoint cutAt (c : ascii) (s : string) : option (string * string) :=
  match s with
  | EmptyString => None
  | String a s => if Ascii.eqb a c then Some ("", s) else match cutAt c s with Some (p, q) => Some (String a p, q) | None => None end
  end.
(** s.split(", "), line 16. *)
Fixpoint splitComma (s : string) : list string :=
  match s with
  | EmptyString => [""]
  | String a r =>
      match a, r with
      | ","%char, String " "%char r' => "" :: splitComma r'
      | _, _ => match splitComma r with p :: ps => String a p :: ps | [] => [] end
      end
  end.
(** pat in s, line 23. *)
Fixpoint isSub (pat s : string) : bool :=
  String.prefix pat s || match s with EmptyString => false | String _ s => isSub pat s end.

(** Lines 17-20. *)
Fixpoint components (parts : list string) : pyres (list (string * string)) :=
  match parts with
  | [] => Ret []
  | a :: parts =>
      match splitChar ":" a with
      | [x; y] => pybind (components parts) (fun rest => Ret ((x, y) :: rest))
      | _ => Raise
      end
  end.
(** Lines 33-36 and 45-48: the amount to add. *)
Definition bitAmount (v : string) (amount : Z) : pyres Z :=
  if String.eqb v "1" then Ret amount else if String.eqb v "0" then Ret 0%Z else Raise.
(** The loop in lines 39-48. *)
Fixpoint completeValue (head : string) (value : Z) (comps : list (string * string)) : pyres Z :=
  match comps with
  | [] => Ret value
  | (b, bValue) :: comps =>
      match splitChar "@" b with
      | [p0; p1] =>
          if String.eqb p0 head && negb (hasChar "." p1) then
            match pyInt p1 with
            | Some m =>
                if (0 <? m)%Z then pybind (bitAmount bValue (Z.shiftl 1 m)) (fun d => completeValue head (value + d)%Z comps)
                else Raise
            | None => Raise
            end
          else completeValue head value comps
      | _ => completeValue head value comps
      end
  end.
(** Lines 25-50 for one component. *)
Definition parseLeading (comps : list (string * string)) (a aValue : string) : pyres string :=
  match splitChar "@" a with
  | head :: t :: _ =>
      match splitChar "." t with
      | [t0; t1; t2] =>
          if String.eqb t0 "0" then
            match pyInt t1, pyInt t2 with
            | Some minValue, Some maxValue =>
                pybind (bitAmount aValue 1) (fun d =>
                pybind (completeValue head (minValue + d)%Z comps) (fun value => Ret (head ++ "=" ++ showZ value)))
            | _, _ => Raise
            end
          else Raise
      | _ => Raise
      end
  | _ => Raise
  end.
(** Lines 21-50: parsedValues, the latest entry first. *)
Fixpoint parseValues (all comps : list (string * string)) (parsed : list (string * string)) : pyres (list (string * string)) :=
  match comps with
  | [] => Ret parsed
  | (a, aValue) :: comps =>
      if isSub "@0." a then pybind (parseLeading all a aValue) (fun v => parseValues all comps ((a, v) :: parsed))
      else parseValues all comps parsed
  end.
(** Lines 54-60. *)
Definition filteredComponents (parsed comps : list (string * string)) : list string :=
  flat_map (fun '(a, aValue) =>
    match find (fun e => String.eqb (fst e) a) parsed with
    | Some e => [snd e]
    | None => if hasChar "@" a then [] else [a ++ ":" ++ aValue]
    end) comps.
(** Lines 9-69 for one line. *)
Definition decodeLine (line : string) : pyres string :=
  if hasChar "<" line && hasChar ">" line then
    match cutAt "<" line with
    | Some (part1, rest) =>
        match cutAt ">" rest with
        | Some (part2, part3) =>
            pybind (components (splitComma part2)) (fun comps =>
            pybind (parseValues comps comps []) (fun parsed =>
              Ret (part1 ++ "<" ++ String.concat ", " (filteredComponents parsed comps) ++ ">" ++ part3)))
        | None => Raise
        end
    | None => Raise
    end
  else Ret line.
(** The loop in lines 8-69. *)
Fixpoint decodeLines (lines : list string) : pyres string :=
  match lines with
  | [] => Ret ""
  | line :: lines => pybind (decodeLine line) (fun l => pybind (decodeLines lines) (fun rest => Ret (l ++ rest)))
  end.
(** The whole program, lines 8-69: from stdin to stdout. *)
Definition decodeText (s : string) : pyres string := decodeLines (readlinesKeep s).
