(** * Model: tools/findMinimalUnrealizableCore.py

    Searches a minimal set of liveness and transition guarantees for which a specification is
    unrealizable.  Not modelled: messages, and the path of the executable. *)

From Coq Require Import String Ascii Arith List Bool.
From Verif Require Import VarTypes Synth Parser Execute Explicit CommandLine FileSpec.
Import ListNotations.
Local Open Scope string_scope.

(** The dictionary of lines 52; its keys are the headers of the eight sections. *)
Definition categories : Type := section -> list string.
Definition noLines : categories := fun _ => [].
Definition setLines (d : categories) (s : section) (ls : list string) : categories :=
  fun s' => if sec_eqb s' s then ls else d s'.
(** The key that a string stands for. *)
Definition keyOf (h : string) : option section := find (fun s => String.eqb (header s) h) sections.

(** Lines 53-63; [cur] is currentCategory.  [None]: a KeyError.  Python's strip removes the same
    characters as boost::trim, readlines cuts at newlines (for files without carriage
    returns and without the characters 28 to 31). *)
Fixpoint readCategories (cur : string) (d : categories) (lines : list string) : option categories :=
  match lines with
  | [] => Some d
  | l :: ls =>
      let line := trim l in
      match line with
      | EmptyString => readCategories cur d ls
      | String a _ =>
          if (a =? "#")%char then readCategories cur d ls
          else if (a =? "[")%char then readCategories line d ls
          else match keyOf cur with
               | None => None
               | Some s => readCategories cur (setLines d s (d s ++ [line])%list) ls
               end
      end
  end.

(** The lines that are written for the sections [order], lines 70-77, 89-96 and 104-110. *)
Definition coreLines (order : list section) (d : categories) : list string :=
  flat_map (fun s => header s :: d s) order.
Definition textOf (lines : list string) : string := sconcat (map (fun l => l ++ nl) lines).

(** The command line in line 23. *)
Definition coreArgs : list string := ["--onlyRealizability"; "/tmp/core.slugsin"].

Section TOOL.
  (** A run of slugs with some arguments when /tmp/core.slugsin has the given content: the verdict in
      its output, or [None] if the exit code is not zero or there is no verdict (then isRealizable,
      lines 19-42, raises an exception). *)
  Variable slugs : list string -> string -> option bool.

  (** The loops in lines 66-82 and 84-100: [kept] are the lines before lineNr, [rest] the other
      ones; [test] tells if the specification with the given lines is realizable. *)
  Fixpoint shrink (test : list string -> option bool) (kept rest : list string) : option (list string) :=
    match rest with
    | [] => Some kept
    | l :: rest =>
        match test (kept ++ rest)%list with
        | None => None
        | Some false => shrink test kept rest
        | Some true => shrink test (kept ++ [l])%list rest
        end
    end.

  (** Lines 70-78 and 89-97: the section that is tested comes last. *)
  Definition orderLive : list section := [SInput; SOutput; SEnvInit; SEnvLive; SEnvTrans; SSysInit; SSysTrans; SSysLive].
  Definition orderTrans : list section := [SInput; SOutput; SEnvInit; SEnvLive; SEnvTrans; SSysInit; SSysLive; SSysTrans].
  Definition shrinkSection (order : list section) (s : section) (d : categories) : option categories :=
    option_map (setLines d s)
      (shrink (fun ls => slugs coreArgs (textOf (coreLines order (setLines d s ls)))) [] (d s)).

  (** findMinimalCore, lines 45-109: the final content of /tmp/core.slugsin; [None]: an exception.  The
      name of the input file must contain a dot (line 46). *)
  Definition findMinimalCore (content : string) : option string :=
    match readCategories "" noLines (getlines content) with
    | None => None
    | Some d =>
        match shrinkSection orderLive SSysLive d with
        | None => None
        | Some d =>
            match shrinkSection orderTrans SSysTrans d with
            | None => None
            | Some d => Some (textOf (flat_map (fun s => header s :: d s ++ [""])%list orderTrans))
            end
        end
    end.
End TOOL.

(** The verdict in the output of a plain run. *)
Definition verdictOfFile (ord : nat -> bool) (content : string) : option bool :=
  match executeFile ord content with
  | POk Realizable => Some true
  | POk Unrealizable => Some false
  | _ => None
  end.
(** The actual program: main.cpp:291-375 with the given arguments.  Runs with a plugin have no
    model here. *)
Definition slugsRun (ord : nat -> bool) (args : list string) (content : string) : option bool :=
  match main args with
  | Execute PBase _ => verdictOfFile ord content
  | _ => None
  end.
