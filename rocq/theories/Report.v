(** * Model: tools/createSpecificationReport.py

    Modelled: how the specification is shown (lines 110-131), and the file for the analysis of positions that are
    winning by falsification of the environment
    (lines 26-60, 233-235 and 255-257).  The other sections of the report contain outputs of programs that are
    modelled in other files, after cgi.escape.  Not modelled: running the programs, the frame of the page.
    Files as for Stuck.v, whose functions readSlugsFile and writeSlugsFile are the same as in lines 26-60. *)

From Coq Require Import String Ascii List Bool Arith ZArith.
From Verif Require Import FormulaSpec Parser Structured StructFile Stuck Decoder.
Import ListNotations.
Local Open Scope string_scope.

(** cgi.escape, called in line 129; the replacements one after the other, ampersands first, amount to one pass. *)
Fixpoint escape (s : string) : string :=
  match s with
  | EmptyString => ""
  | String a s =>
      if Ascii.eqb a "&" then "&amp;" ++ escape s
      else if Ascii.eqb a "<" then "&lt;" ++ escape s
      else if Ascii.eqb a ">" then "&gt;" ++ escape s
      else String a (escape s)
  end.
(** Whether Python prints a blank before the next item after   print s,   (line 129). *)
Fixpoint softspace (s : string) : bool :=
  match s with
  | EmptyString => true
  | String a EmptyString => negb (isWs a) || Ascii.eqb a " "
  | String _ s => softspace s
  end.
(** Lines 116-129: the text between the two tags, with nofEmptyLines and a pending blank. *)
Fixpoint showSpec (nofEmptyLines : Z) (pending : bool) (lines : list string) : string :=
  match lines with
  | [] => if pending then " " else ""
  | line :: lines =>
      if String.eqb (trim line) "" then showSpec (nofEmptyLines + 1) pending lines
      else if String.eqb (trim line) "# --- End of the specification for the report" then (if pending then " " else "")
      else String.concat "" (map (fun _ => String "010" "") (seq 0 (Z.to_nat nofEmptyLines))) ++ escape line ++ showSpec 0 (softspace line) lines
  end.
Definition shownSpecification (text : string) : string := showSpec (-10000) false (readlinesKeep text).

(** slugsLines[key] = ls, lines 234 and 256. *)
Definition setLines (d : lineDict) (key : string) (ls : list string) : lineDict := fun k => if String.eqb k key then ls else d k.
(** Lines 233-235 and 255-257. *)
Definition falsificationFile (compiled : string) : pyres string :=
  pybind (readSlugsFile "" emptyDict (getlines compiled)) (fun d => Ret (writeSlugsFile (setLines d "[SYS_LIVENESS]" ["0"]))).
