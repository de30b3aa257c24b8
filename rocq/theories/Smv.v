(** * Model: tools/makeNuSMVInstanceToTestAutomatonFileAgainstSlugsSpecification.py

    The tool reads a specification and a strategy as printed by slugs, and writes a NuSMV file.  The model
    yields the content of that file as a value of type smv in place of a text: variables, cases and specifications in the order in which
    they are written, with the formulas as trees.  That the text is read by NuSMV as these trees, and that the
    names are identifiers of NuSMV, is not modelled.  The values of
    dictionaries that are read with int may be any integers; negative numbers of successors are treated as
    an exception, although Python would count from the end. *)

From Coq Require Import String Ascii List Bool Arith NArith ZArith.
From Verif Require Import FormulaSpec Explicit Parser Structured StructFile Decoder Graph SmvSpec.
Import ListNotations.
Local Open Scope string_scope.

(** ** The specification, lines 31-44 *)

Definition slugsKeys : list string :=
  ["[INPUT]"; "[OUTPUT]"; "[ENV_LIVENESS]"; "[ENV_INIT]"; "[SYS_INIT]"; "[SYS_TRANS]"; "[ENV_TRANS]"; "[SYS_LIVENESS]"].
Definition slugsLines : Type := list (string * string).
(** The lines with their categories; the empty category is not a key. *)
Fixpoint readSlugs (category : string) (lines : list string) : pyres slugsLines :=
  match lines with
  | [] => Ret []
  | line :: lines =>
      let line := trim line in
      if negb (String.prefix "#" line) && negb (String.eqb line "") then
        if String.prefix "[" line then
          if existsb (String.eqb line) slugsKeys then readSlugs line lines else Raise
        else if existsb (String.eqb category) slugsKeys then pybind (readSlugs category lines) (fun d => Ret ((category, line) :: d)) else Raise
      else readSlugs category lines
  end.
(** slugsLines[key] *)
Definition linesIn (d : slugsLines) (key : string) : list string := map snd (filter (fun p => String.eqb (fst p) key) d).

(** ** The automaton, lines 51-89 *)

Definition onHead (a : ascii) (l : list string) : list string := match l with p :: ps => String a p :: ps | [] => [] end.
(** Lines 55 and 60: splitting at matches of   ->|, | |<|:|>  where the first and third alternative begin with a blank. *)
Fixpoint split1 (s : string) : list string :=
  match s with
  | EmptyString => [""]
  | String " " (String "-" (String ">" s)) => "" :: split1 s
  | String "," (String " " s) => "" :: split1 s
  | String a s => if Ascii.eqb a " " || Ascii.eqb a "<" || Ascii.eqb a ":" || Ascii.eqb a ">" then "" :: split1 s else onHead a (split1 s)
  end.
(** Lines 56 and 78: splitting at two or more blanks, at a colon between blanks and at a comma with a blank. *)
Fixpoint split2 (skip : bool) (s : string) : list string :=
  match s with
  | EmptyString => [""]
  | String " " r =>
      if skip then split2 true r
      else match r with
           | String " " r => "" :: split2 true r
           | String ":" (String " " r) => "" :: split2 false r
           | _ => onHead " " (split2 false r)
           end
  | String "," (String " " r) => "" :: split2 false r
  | String a r => onHead a (split2 false r)
  end.
Definition valuationDict : Type := list (string * Z).
(** Lines 74-75, from the seventh part on. *)
Fixpoint readValues (parts : list string) (d : valuationDict) : pyres valuationDict :=
  match parts with
  | a :: b :: parts => match pyInt b with Some z => readValues parts (put a z d) | None => Raise end
  | _ => Ret d
  end.
(** Lines 82-83. *)
Fixpoint readNumbers (parts : list string) : pyres (list nat) :=
  match parts with
  | [] => Ret []
  | p :: parts =>
      match pyInt p with
      | Some z => if (z <? 0)%Z then Raise else pybind (readNumbers parts) (fun ns => Ret (Z.to_nat z :: ns))
      | None => Raise
      end
  end.
Definition autStates : Type := list (valuationDict * list nat).
(** Lines 60-75, with the number of states read so far. *)
Definition readFirst (number : nat) (line : string) : pyres valuationDict :=
  match split1 line with
  | w0 :: w1 :: w2 :: w3 :: _ :: w5 :: w6 :: parts =>
      if String.eqb w0 "State" && String.eqb w1 (showNat number) && String.eqb w2 "with" && String.eqb w3 "rank" && String.eqb w5 "" && String.eqb w6 ""
      then readValues parts [] else Raise
  | _ => Raise
  end.
(** Lines 78-83. *)
Definition readSecond (line : string) : pyres (list nat) :=
  match split2 false line with
  | w0 :: parts => if String.prefix "With successors" w0 then readNumbers parts else Raise
  | [] => Raise
  end.
(** Lines 57-88. *)
Fixpoint readAut (number : nat) (lines : list string) : pyres autStates :=
  match lines with
  | [] => Ret []
  | line :: rest =>
      if String.eqb (trim line) "" then readAut number rest
      else pybind (readFirst number (trim line)) (fun d =>
        match rest with
        | [] => Raise
        | line2 :: rest => pybind (readSecond (trim line2)) (fun succs => pybind (readAut (S number) rest) (fun sts => Ret ((d, succs) :: sts)))
        end)
  end.

(** ** The transitions, lines 93-198 *)

Fixpoint pyMapM {A B} (f : A -> pyres B) (l : list A) : pyres (list B) :=
  match l with
  | [] => Ret []
  | a :: l => pybind (f a) (fun b => pybind (pyMapM f l) (fun bs => Ret (b :: bs)))
  end.
(** automatonStates[k][0][a], compared with 0. *)
Definition bitAt (sts : autStates) (k : nat) (a : string) : pyres bool :=
  match nth_error sts k with
  | Some (d, _) => match get a d with Some z => Ret (negb (Z.eqb z 0)) | None => Raise end
  | None => Raise
  end.
(** Lines 111-116, 122-127, 128-133 and so on: the condition with the literals of some names. *)
Fixpoint withLits (sts : autStates) (k : nat) (prefix : string) (names : list string) (c : cond) : pyres cond :=
  match names with
  | [] => Ret c
  | a :: names => pybind (bitAt sts k a) (fun b => withLits sts k prefix names (CAnd c (CLit b (prefix ++ a))))
  end.
(** Lines 107-117 and 157-172: one case for every transition, with the values given by [what]. *)
Definition transitionCases {V} (sts : autStates) (ins : list string) (what : nat -> pyres (list V)) : pyres (list (cond * list V)) :=
  pybind (pyMapM (fun p : nat * (valuationDict * list nat) =>
    pyMapM (fun succ => pybind (withLits sts succ "v_" ins (CState (fst p))) (fun c => pybind (what succ) (fun vs => Ret (c, vs)))) (snd (snd p)))
    (combine (seq 0 (length sts)) sts)) (fun ll => Ret (concat ll)).
(** Lines 120-138 and 175-194: one case for every state. *)
Definition initialCases {V} (sts : autStates) (ins outs : list string) (what : nat -> pyres (list V)) : pyres (list (cond * list V)) :=
  pyMapM (fun k => pybind (withLits sts k "v_" ins (CState (length sts))) (fun c => pybind (withLits sts k "i_" outs c) (fun c => pybind (what k) (fun vs => Ret (c, vs)))))
    (seq 0 (length sts)).
(** Line 136: equality of dictionaries. *)
Definition dictEqb (d e : valuationDict) : bool :=
  forallb (fun p => match get (fst p) e with Some z => Z.eqb z (snd p) | None => false end) d &&
  forallb (fun p => match get (fst p) d with Some z => Z.eqb z (snd p) | None => false end) e.
(** Lines 134-137. *)
Definition possibleStates (sts : autStates) (k : nat) : list nat :=
  filter (fun j => dictEqb (fst (nth k sts ([], []))) (fst (nth j sts ([], [])))) (seq 0 (length sts)).
(** Lines 105-151. *)
Definition stateCases (sts : autStates) (ins outs : list string) : pyres (list (cond * list nat)) :=
  pybind (transitionCases sts ins (fun succ => Ret [succ])) (fun a =>
  pybind (initialCases sts ins outs (fun k => Ret (possibleStates sts k))) (fun b =>
  Ret (a ++ b ++ [(CLess (length sts), seq 0 (length sts)); (CTrue, [length sts])])%list)).
(** Lines 155-197. *)
Definition outputCases (sts : autStates) (ins outs : list string) (o : string) : pyres (list (cond * list bool)) :=
  let what k := pybind (bitAt sts k o) (fun b => Ret [b]) in
  pybind (transitionCases sts ins what) (fun a =>
  pybind (initialCases sts ins outs what) (fun b =>
  Ret (a ++ b ++ [(CTrue, [false; true])])%list)).

(** ** The formulas, lines 203-263 *)

Fixpoint findName (ap : string -> ltl) (apNext : string -> pyres ltl) (names : list string) (op : string) : option (pyres ltl) :=
  match names with
  | [] => None
  | x :: names => if String.eqb x op then Some (Ret (ap x)) else if String.eqb (x ++ "'") op then Some (apNext x) else findName ap apNext names op
  end.
(** Lines 222-232 and 253-263; [init]: the latter. *)
Definition toAtom (init : bool) (ins outs : list string) (op : string) : pyres ltl :=
  let v x := LVar ("v_" ++ x) in
  match findName v (fun x => if init then Raise else Ret (LNext (v x))) ins op with
  | Some r => r
  | None =>
      match findName (fun x => LNext (v x)) (fun x => if init then Raise else Ret (LNext (LNext (v x)))) outs op with
      | Some r => r
      | None => Raise
      end
  end.
(** Lines 207-232 and 238-263, with the tokens that are left.  Every call removes one token, so that the
    fuel suffices if it is greater than the number of tokens. *)
Fixpoint toLTL (init : bool) (ins outs : list string) (fuel : nat) (tokens : list string) : pyres (ltl * list string) :=
  match fuel with
  | O => Diverge
  | S fuel =>
      match tokens with
      | [] => Raise
      | op :: tokens =>
          if String.eqb op "|" || String.eqb op "&" then
            pybind (toLTL init ins outs fuel tokens) (fun '(f, tokens) =>
            pybind (toLTL init ins outs fuel tokens) (fun '(g, tokens) =>
            Ret (if String.eqb op "|" then LOr f g else LAnd f g, tokens)))
          else if String.eqb op "!" then pybind (toLTL init ins outs fuel tokens) (fun '(f, tokens) => Ret (LNot f, tokens))
          else if String.eqb op "1" then Ret (LTrue, tokens)
          else if String.eqb op "0" then Ret (LFalse, tokens)
          else pybind (toAtom init ins outs op) (fun f => Ret (f, tokens))
      end
  end.
(** A line of the specification; the remaining tokens are ignored. *)
Definition lineLTL (init : bool) (ins outs : list string) (line : string) : pyres ltl :=
  let tokens := splitChar " " line in
  pybind (toLTL init ins outs (S (length tokens)) tokens) (fun '(f, _) => Ret f).

(** ** The specifications, lines 265-278 *)

(** TRUE & ... & ... *)
Definition conjunctionL (fs : list ltl) : ltl := fold_left LAnd fs LTrue.
Definition specifications (d : slugsLines) (n : nat) : pyres (list ltl) :=
  let ins := linesIn d "[INPUT]" in let outs := linesIn d "[OUTPUT]" in
  let initOf key := pyMapM (lineLTL true ins outs) (linesIn d key) in
  let transOf key := pyMapM (lineLTL false ins outs) (linesIn d key) in
  pybind (initOf "[SYS_INIT]") (fun si =>
  pybind (initOf "[ENV_INIT]") (fun ei =>
  pybind (transOf "[ENV_TRANS]") (fun et =>
  pybind (transOf "[SYS_TRANS]") (fun st =>
  pybind (transOf "[ENV_LIVENESS]") (fun el =>
  pybind (transOf "[SYS_LIVENESS]") (fun sl =>
  let allInit := LAnd (conjunctionL (si ++ ei)) (LNext (LStateNot n)) in
  let safe := conjunctionL et in
  let live := conjunctionL (map (fun f => LAlways (LEventually f)) el) in
  Ret (map (fun f => LImp allInit (LRelease (LNot safe) (LOr f (LNot safe)))) st ++
       map (fun f => LImp (LAnd (LAnd allInit (LAlways safe)) live) (LAlways (LEventually f))) sl)%list)))))).

(** The complete tool. *)
Definition makeInstance (slugsText autText : string) : pyres smv :=
  pybind (readSlugs "" (getlines slugsText)) (fun d =>
  pybind (readAut 0 (readlinesKeep autText)) (fun sts =>
  let ins := linesIn d "[INPUT]" in let outs := linesIn d "[OUTPUT]" in
  pybind (stateCases sts ins outs) (fun sc =>
  pybind (pyMapM (fun o => pybind (outputCases sts ins outs o) (fun cs => Ret ("v_" ++ o, cs))) outs) (fun ocs =>
  pybind (specifications d (length sts)) (fun specs =>
  Ret (mkSmv (map (append "v_") ins ++ map (append "i_") outs) (map (append "v_") outs) (length sts) (length sts) sc ocs specs)))))).
