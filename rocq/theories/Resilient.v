(** * Model: tools/kResilientRealizabilityChecker.py, resilience against arbitrarily many violations

    Lines 58-82 (reading), 122-174 (search) and 182-269 (the specification for a set of assumptions and
    the search over the sets).  Not modelled: messages on stderr, time measurement.  The part
    for a bounded number of violations (lines 278-484 and 499-508) is in Mixed.v.  The file is read and written as a text;
    str.strip is the model of boost::trim (Parser.v). *)

From Coq Require Import String Ascii List Bool Arith.
From Verif Require Import Synth Parser Execute Structured StructFile.
Import ListNotations.
Local Open Scope string_scope.

(** The keys in line 61. *)
Definition resilientKeys : list string :=
  ["[ENV_TRANS]"; "[ENV_INIT]"; "[INPUT]"; "[OUTPUT]"; "[SYS_TRANS]"; "[SYS_INIT]"; "[ENV_LIVENESS]"; "[SYS_LIVENESS]"].
(** Lines 65-81: lines and essentialEnvTrans; an unknown mode is a KeyError in line 80. *)
Fixpoint readSpec (mode : string) (nextIsVariableLimits : bool) (lines : lineDict) (essentialEnvTrans : list string)
    (ls : list string) : pyres (lineDict * list string) :=
  match ls with
  | [] => Ret (lines, essentialEnvTrans)
  | l :: ls =>
      let line := trim l in
      if String.eqb line "" then readSpec mode nextIsVariableLimits lines essentialEnvTrans ls
      else if firstIs "#" line then
        readSpec mode (if String.prefix "## Variable limits" line then true else nextIsVariableLimits) lines essentialEnvTrans ls
      else if firstIs "[" line then readSpec line nextIsVariableLimits lines essentialEnvTrans ls
      else if nextIsVariableLimits && String.eqb mode "[ENV_TRANS]" then
        readSpec mode false lines (essentialEnvTrans ++ [line])%list ls
      else if existsb (String.eqb mode) resilientKeys then readSpec mode false (pushLine lines mode line) essentialEnvTrans ls
      else Raise
  end.

(** ** The search, lines 122-174

    For any kind of elements; sets are lists (only membership matters). *)
Section Frontier.
  Variable A : Type.
  Variable eqA : A -> A -> bool.
  Variable isLeqThan : A -> A -> bool.
  Variable getSuccessors : A -> list A.
  Variable oracleFunction : A -> pyres bool.
  Variable solutionsKnownAlready : list A.

  (** resultStoragePlace, cachedOracleFalseElements, doneStoragePlace *)
  Record frontierState := mkFrontier { resultStorage : list A; cachedFalse : list A; doneStorage : list A }.

  (** The loop in lines 155-158. *)
  Fixpoint frontierLoop (recurse : frontierState -> A -> pyres (frontierState * bool)) (st : frontierState) (successors : list A)
      : pyres (frontierState * bool) :=
    match successors with
    | [] => Ret (st, false)
    | a :: successors =>
        pybind (recurse st a) (fun '(st, newElementFound) =>
        pybind (frontierLoop recurse st successors) (fun '(st, foundGreaterElement) =>
          Ret (st, newElementFound || foundGreaterElement)))
    end.
  (** getFrontierSetInLatticeRecurse, lines 122-166.  Falling off the end returns None, which counts as
      False in line 158. *)
  Fixpoint frontierRecurse (fuel : nat) (st : frontierState) (startingPoint : A) : pyres (frontierState * bool) :=
    match fuel with
    | O => Diverge
    | S fuel =>
        if existsb (eqA startingPoint) (doneStorage st) then
          Ret (st, existsb (isLeqThan startingPoint) (resultStorage st))
        else if existsb (fun otherElement => isLeqThan otherElement startingPoint) (cachedFalse st) then Ret (st, false)
        else
          let st := mkFrontier (resultStorage st) (cachedFalse st) (startingPoint :: doneStorage st) in
          let toBeChecked := negb (existsb (isLeqThan startingPoint) (resultStorage st)) && negb (existsb (isLeqThan startingPoint) solutionsKnownAlready) in
          pybind (if toBeChecked then oracleFunction startingPoint else Ret true) (fun inside =>
            if inside then
              pybind (frontierLoop (frontierRecurse fuel) st (getSuccessors startingPoint)) (fun '(st, foundGreaterElement) =>
                if foundGreaterElement then Ret (st, false)
                else if existsb (isLeqThan startingPoint) (resultStorage st) then Ret (st, false)
                else Ret (mkFrontier (resultStorage st ++ [startingPoint]) (cachedFalse st) (doneStorage st), true))
            else Ret (mkFrontier (resultStorage st) (startingPoint :: cachedFalse st) (doneStorage st), false))
    end.
  (** getFrontierSetInLattice, lines 169-174; Diverge if the depth of the recursion reaches [fuel]. *)
  Definition getFrontierSetInLattice (fuel : nat) (startingPoint : A) : pyres (list A) :=
    pybind (frontierRecurse fuel (mkFrontier [] [] []) startingPoint) (fun '(st, _) => Ret (resultStorage st)).
End Frontier.

(** ** Resilience against arbitrarily many violations, lines 182-269 *)

(** Lines 198-203: the lines of the section ENV_TRANS and sysPrefix. *)
Fixpoint splitTrans (which : list bool) (envTrans : list string) (sysPrefix : string) : list string * string :=
  match envTrans with
  | [] => ([], sysPrefix)
  | line :: envTrans =>
      match which with
      | true :: which => splitTrans which envTrans ("| ! " ++ line ++ " " ++ sysPrefix)
      | _ => let '(kept, sysPrefix) := splitTrans (tl which) envTrans sysPrefix in (line :: kept, sysPrefix)
      end
  end.
(** Lines 189-208: the content of the specification file. *)
Definition inftyRobustSpecification (lines : lineDict) (essentialEnvTrans : list string) (which : list bool) : string :=
  let '(kept, sysPrefix) := splitTrans which (lines "[ENV_TRANS]") "" in
  String.concat "" (map (fun l => l ++ String "010" "")
    (flat_map (fun copyCategory => copyCategory :: lines copyCategory ++ [""])%list ["[INPUT]"; "[OUTPUT]"; "[ENV_LIVENESS]"; "[ENV_INIT]"; "[SYS_INIT]"; "[SYS_TRANS]"]
     ++ "[ENV_TRANS]" :: essentialEnvTrans ++ kept
     ++ "[SYS_LIVENESS]" :: map (fun line => (sysPrefix ++ line)%string) (lines "[SYS_LIVENESS]"))%list).
(** checkInftyRobustImplementability, lines 182-238: exits if slugs does not print a verdict. *)
Definition checkInftyRobustImplementability (ord : nat -> bool) (lines : lineDict) (essentialEnvTrans : list string) (which : list bool) : pyres bool :=
  match executeFile ord (inftyRobustSpecification lines essentialEnvTrans which) with
  | POk Realizable => Ret true
  | POk Unrealizable => Ret false
  | _ => Raise
  end.

(** BoolVectorLatticeElement, lines 243-266; vectors of different lengths (IndexError) do not occur. *)
Fixpoint vecEq (x y : list bool) : bool :=
  match x, y with
  | [], [] => true
  | a :: x, b :: y => Bool.eqb a b && vecEq x y
  | _, _ => false
  end.
Fixpoint vecLeq (x y : list bool) : bool :=
  match x, y with
  | [], _ => true
  | a :: x, b :: y => (b || negb a) && vecLeq x y
  | _ :: _, [] => false
  end.
Fixpoint vecSuccessors (x : list bool) : list (list bool) :=
  match x with
  | [] => []
  | a :: x => ((if a then [] else [true :: x]) ++ map (cons a) (vecSuccessors x))%list
  end.

(** findInftyRobustSolutions, lines 240-269, on the content of the input file. *)
Definition findInftyRobustSolutions (ord : nat -> bool) (content : string) : pyres (list (list bool)) :=
  pybind (readSpec "" false emptyDict [] (getlines content)) (fun '(lines, essentialEnvTrans) =>
    let n := length (lines "[ENV_TRANS]") in
    getFrontierSetInLattice (list bool) vecEq vecLeq vecSuccessors
      (checkInftyRobustImplementability ord lines essentialEnvTrans) [] (S n) (repeat false n)).
