(** * Model of tools/StructuredSlugsParser/compiler.py: translation of formulas and declarations

    The functions here start from derivation trees without the productions that only rename a
    nonterminal, which clean_tree removes by its cases with len(tree)==2; StructParse.v has tokenize,
    the parser and these trees, StructFile.v the files.  Not modelled: error messages. *)

From Coq Require Import String Ascii List Bool Arith NArith ZArith.
From Coq Require Import DecimalString.
From Verif Require Import StructuredSpec.
Import ListNotations.
Local Open Scope list_scope.

(** Outcome of a Python function: a value, an exception, or no termination. *)
Inductive pyres (A : Type) : Type :=
| Ret (a : A)
| Raise
| Diverge.
Arguments Ret {A} a.
Arguments Raise {A}.
Arguments Diverge {A}.
Definition pybind {A B} (x : pyres A) (f : A -> pyres B) : pyres B :=
  match x with Ret a => f a | Raise => Raise | Diverge => Diverge end.

(** str(n). *)
Definition str (n : nat) : string := NilEmpty.string_of_uint (Nat.to_uint n).

(** ** Declarations *)

(** Lines 546-548: the smallest number n with maxValue - minValue < 2**n. *)
Definition nofBits (minValue maxValue : Z) : nat := N.size_nat (Z.to_N (maxValue - minValue)).
(** Line 551, translatedNames[x]. *)
Definition translatedNames (x : string) (minValue maxValue : Z) : list string :=
  map (fun i => x ++ "@" ++ str i ++ (if Nat.eqb i 0 then "." ++ showZ minValue ++ "." ++ showZ maxValue else ""))%string
    (seq 0 (nofBits minValue maxValue)).

(** Lines 561-566 and 576-581: the tokens for the limit; bit i of limitDiff, from bit [i] on. *)
Fixpoint limitTokens (limitDiff : Z) (i : nat) (names : list string) (tokens : list string) : list string :=
  match names with
  | [] => tokens
  | x :: names =>
      limitTokens limitDiff (S i) names ((if Z.testbit limitDiff (Z.of_nat i) then ["| !"; x]%string else ["& !"; x]%string) ++ tokens)
  end.
(** Lines 555-583: lines added to [..._INIT] and [..._TRANS], without the comments. *)
Definition limitLines (thoroughly : bool) (x : string) (minValue maxValue : Z) : list string * list string :=
  let limitDiff := (maxValue - minValue + 1)%Z in
  let names := translatedNames x minValue maxValue in
  if (2 ^ Z.of_nat (nofBits minValue maxValue) =? limitDiff)%Z then ([], [])
  else
    let init := String.concat " " (limitTokens limitDiff 0 names ["0"%string]) in
    let next := String.concat " " (limitTokens limitDiff 0 (map (fun w => w ++ "'")%string names) ["0"%string]) in
    ([init], (if thoroughly then [init] else []) ++ [next]).

(** ** Numbers *)

(** Lines 273-282.  For a negative number, parameter // 2 never becomes 0, as -1 // 2 is -1. *)
Fixpoint posBits (p : positive) : list string :=
  match p with
  | xH => ["1"%string]
  | xO p => "0"%string :: posBits p
  | xI p => "1"%string :: posBits p
  end.
Definition numeralBits (n : Z) : pyres (list string) :=
  match n with Z0 => Ret [] | Zpos p => Ret (posBits p) | Zneg _ => Diverge end.

(** apName[len(apName)-1]=="'", and apName[0:len(apName)-1]. *)
Fixpoint lastIsPrime (x : string) : bool :=
  match x with
  | EmptyString => false
  | String a EmptyString => Ascii.eqb a "'"%char
  | String _ x => lastIsPrime x
  end.
Definition withoutLast (x : string) : string := substring 0 (String.length x - 1) x.

(** memoryStructureParts. *)
Definition parts := list (list string).
Definition pushPart (ps : parts) (t : list string) : parts := ps ++ [t].

(** Lines 259-261: the remaining bits of the longer number. *)
Fixpoint addRest (p2 : list string) (ps : parts) : parts :=
  match p2 with
  | [] => ps
  | b :: p2 =>
      let ps := pushPart ps ["^"; b; "?"; str (length ps - 1)]%string in
      let ps := pushPart ps ["&"; b; "?"; str (length ps - 2)]%string in
      addRest p2 ps
  end.
(** Lines 254-256: bits of both numbers. *)
Fixpoint addJoint (p1 p2 : list string) (ps : parts) : parts :=
  match p1, p2 with
  | a :: p1, b :: p2 =>
      let ps := pushPart ps ["^ ^"; a; b; "?"; str (length ps - 1)]%string in
      let ps := pushPart ps ["| | &"; a; b; "& ?"; str (length ps - 2); a; "& ?"; str (length ps - 2); b]%string in
      addJoint p1 p2 ps
  | _, _ => addRest p2 ps
  end.
(** Lines 244-264. *)
Definition addBits (p1 p2 : list string) (ps : parts) : list string * parts :=
  if Nat.eqb (length p1) 0 then (p2, ps)
  else if Nat.eqb (length p2) 0 then (p1, ps)
  else
    let '(p1, p2) := if Nat.ltb (length p2) (length p1) then (p2, p1) else (p1, p2) in
    let startingPosition := length ps in
    let a := hd EmptyString p1 in
    let b := hd EmptyString p2 in
    let ps := addJoint (tl p1) (tl p2) (pushPart (pushPart ps ["^"; a; b]%string) ["&"; a; b]%string) in
    (map (fun i => "? " ++ str (i * 2 + startingPosition))%string (seq 0 (length p2)) ++ [("? " ++ str (length ps - 1))%string], ps).

Section FORMULAS.
  (** numberAPLimits; the latest declaration of a name first. *)
  Variable D : limits.

  (** addMinimumValueToAllVariables, lines 320-334. *)
  Fixpoint addMinimum (a : num) : pyres num :=
    match a with
    | NumID x =>
        let apName := if lastIsPrime x then withoutLast x else x in
        match limitsOf D apName with
        | None => Raise (* KeyError *)
        | Some (minimum, _) => if (minimum =? 0)%Z then Ret a else Ret (Add a (Numeral minimum))
        end
    | Numeral n => Ret a
    | Add a b => pybind (addMinimum a) (fun a => pybind (addMinimum b) (fun b => Ret (Add a b)))
    | Mul a b => pybind (addMinimum a) (fun a => pybind (addMinimum b) (fun b => Ret (Mul a b)))
    | NumBrackets a => pybind (addMinimum a) (fun a => Ret (NumBrackets a))
    | Overwrite a b => pybind (addMinimum a) (fun a => pybind (addMinimum b) (fun b => Ret (Overwrite a b)))
    end.

  (** recurseCalculationSubformula, lines 237-312. *)
  Fixpoint calculation (isPrimed : bool) (a : num) (ps : parts) : pyres (list string * parts) :=
    match a with
    | Add a b =>
        pybind (calculation isPrimed a ps) (fun '(p1, ps) =>
        pybind (calculation isPrimed b ps) (fun '(p2, ps) => Ret (addBits p1 p2 ps)))
    | Numeral n => pybind (numeralBits n) (fun bits => Ret (bits, ps))
    | NumID x =>
        let primedLocally := lastIsPrime x in
        if primedLocally && isPrimed then Raise
        else
          let apName := if primedLocally then withoutLast x else x in
          match limitsOf D apName with
          | None => Raise
          | Some (mn, mx) =>
              let names := translatedNames apName mn mx in
              Ret (if negb primedLocally && negb isPrimed then names else map (fun w => w ++ "'")%string names, ps)
          end
    | NumBrackets a => calculation isPrimed a ps
    | Overwrite a b =>
        pybind (calculation isPrimed a ps) (fun '(p1, ps) =>
        pybind (calculation isPrimed b ps) (fun '(p2, ps) =>
          if Nat.ltb (length p1) (length p2) then Ret (p1 ++ skipn (length p1) p2, ps) else Raise (* AssertionError *)))
    | Mul a b => Raise
    end.

  (** Lines 349-357: greater, greater or equal. *)
  Fixpoint greaterParts (p1 p2 : list string) (thisParts : list string) : list string :=
    match p1, p2 with
    | a :: p1, b :: p2 => greaterParts p1 p2 (["|"; "&"; a; "!"; b; "& | !"; b; a]%string ++ thisParts)
    | [], p2 => fold_left (fun this b => ["& !"; b]%string ++ this) p2 thisParts
    | p1, [] => fold_left (fun this a => ["|"; a]%string ++ this) p1 thisParts
    end.
  (** Lines 360-368: smaller, smaller or equal. *)
  Fixpoint smallerParts (p1 p2 : list string) (thisParts : list string) : list string :=
    match p1, p2 with
    | a :: p1, b :: p2 => smallerParts p1 p2 (["|"; "& !"; a; b; "& |"; b; "!"; a]%string ++ thisParts)
    | [], p2 => fold_left (fun this b => ["|"; b]%string ++ this) p2 thisParts
    | p1, [] => fold_left (fun this a => ["& !"; a]%string ++ this) p1 thisParts
    end.
  (** Lines 371-378: equal. *)
  Fixpoint equalParts (p1 p2 : list string) (thisParts : list string) : list string :=
    match p1, p2 with
    | a :: p1, b :: p2 => equalParts p1 p2 (["&"; "! ^"; a; b]%string ++ thisParts)
    | [], p2 => fold_left (fun this b => ["& !"; b]%string ++ this) p2 thisParts
    | p1, [] => fold_left (fun this a => ["& !"; a]%string ++ this) p1 thisParts
    end.
  Definition comparison (c : comparator) (p1 p2 : list string) : list string :=
    match c with
    | CGt => greaterParts p1 p2 ["0"%string]
    | CGe => greaterParts p1 p2 ["1"%string]
    | CLt => smallerParts p1 p2 ["0"%string]
    | CLe => smallerParts p1 p2 ["1"%string]
    | CEq => equalParts p1 p2 ["1"%string]
    | CNe => "!"%string :: equalParts p1 p2 ["1"%string]
    end.
  (** computeCalculationSubformula, lines 339-388. *)
  Definition calculationSubformula (a : num) (c : comparator) (b : num) (isPrimed : bool) : pyres (list string) :=
    pybind (addMinimum a) (fun a => pybind (calculation isPrimed a []) (fun '(p1, ps) =>
    pybind (addMinimum b) (fun b => pybind (calculation isPrimed b ps) (fun '(p2, ps) =>
      let ps := pushPart ps (comparison c p1 p2) in
      Ret (["$"%string; str (length ps)] ++ concat ps))))).

  (** ** Formulas *)

  (** Trees with nested conjunctions etc. as one list. *)
  Inductive tree : Type :=
  | TBiimp (f g : tree)
  | TImp (f g : tree)
  | TXor (fs : list tree)
  | TOr (fs : list tree)
  | TAnd (fs : list tree)
  | TTemporal
  | TUnary (o : unop) (f : tree)
  | TFalse
  | TTrue
  | TAssign (x : string)
  | TCalc (a : num) (c : comparator) (b : num).

  (** clean_tree, lines 68-142. *)
  Fixpoint clean (f : sfml) : tree :=
    match f with
    | SBiimp f g => TBiimp (clean f) (clean g)
    | SImp f g => TImp (clean f) (clean g)
    | SXor f g => TXor [clean f; clean g]
    | SOr f g => TOr [clean f; clean g]
    | SAnd f g => TAnd [clean f; clean g]
    | STemporal _ _ _ => TTemporal
    | SUnary o f => TUnary o (clean f)
    | SFalse => TFalse
    | STrue => TTrue
    | SBrackets f => clean f
    | SAssign x => TAssign x
    | SCalc a c b => TCalc a c b
    end.
  (** flatten_as_much_as_possible, lines 143-186. *)
  Fixpoint flatten (t : tree) : tree :=
    match t with
    | TBiimp f g => TBiimp (flatten f) (flatten g)
    | TImp f g => TImp (flatten f) (flatten g)
    | TXor fs => TXor (flat_map (fun f => match flatten f with TXor gs => gs | g => [g] end) fs)
    | TOr fs => TOr (flat_map (fun f => match flatten f with TOr gs => gs | g => [g] end) fs)
    | TAnd fs => TAnd (flat_map (fun f => match flatten f with TAnd gs => gs | g => [g] end) fs)
    | TUnary o f => TUnary o (flatten f)
    | TTemporal | TFalse | TTrue | TAssign _ | TCalc _ _ _ => t
    end.

  (** parseSimpleFormula, lines 393-440. *)
  Fixpoint simpleFormula (isPrimed : bool) (t : tree) : pyres (list string) :=
    let nary (op : string) (fs : list tree) : pyres (list string) :=
      match fs with
      | [] => Raise (* IndexError *)
      | f :: fs =>
          fold_left (fun ret f => pybind ret (fun ret => pybind (simpleFormula isPrimed f) (fun b => Ret ([op] ++ ret ++ b))))
            fs (simpleFormula isPrimed f)
      end in
    match t with
    | TBiimp f g =>
        pybind (simpleFormula isPrimed f) (fun b1 => pybind (simpleFormula isPrimed g) (fun b2 =>
          Ret (["|"; "&"; "!"]%string ++ b1 ++ ["!"%string] ++ b2 ++ ["&"%string] ++ b1 ++ b2)))
    | TImp f g =>
        pybind (simpleFormula isPrimed f) (fun b1 => pybind (simpleFormula isPrimed g) (fun b2 =>
          Ret (["|"; "!"]%string ++ b1 ++ b2)))
    | TAnd fs => nary "&"%string fs
    | TOr fs => nary "|"%string fs
    | TUnary ONot f => pybind (simpleFormula isPrimed f) (fun b => Ret (["!"%string] ++ b))
    | TUnary ONext f => if isPrimed then Raise else simpleFormula true f
    | TAssign x =>
        if isPrimed then
          if existsb (Ascii.eqb "'"%char) (list_ascii_of_string x) then Raise else Ret [(x ++ "'")%string]
        else Ret [x]
    | TTrue => Ret ["1"%string]
    | TFalse => Ret ["0"%string]
    | TCalc a c b => calculationSubformula a c b isPrimed
    | TXor _ | TTemporal | TUnary _ _ => Raise
    end.

  (** parseLTL from line 223 on and translateToSlugsFormat, lines 443-446. *)
  Definition translate (f : sfml) : pyres string :=
    pybind (simpleFormula false (flatten (clean f))) (fun tokens => Ret (String.concat " " tokens)).
End FORMULAS.

(** ** Lines that are copied *)

(** isValidRecursiveSlugsProperty, lines 455-480, without the explanations.  The argument are the
    parts of the line between spaces.  [None]: return False inside the loop. *)
Definition slugsStep (booleanAPs : list string) (currentToken : string) (stacksize : option nat) : option nat :=
  match stacksize with
  | None => None
  | Some n =>
      if existsb (String.eqb currentToken) ["|"; "&"; "^"]%string then (if Nat.ltb n 2 then None else Some (n - 1))
      else if String.eqb currentToken "!" then Some n
      else if existsb (String.eqb currentToken) ["1"; "0"]%string then Some (S n)
      else
        let currentToken := if lastIsPrime currentToken then withoutLast currentToken else currentToken in
        if existsb (String.eqb currentToken) booleanAPs then Some (S n)
        else if existsb (String.eqb currentToken) ["0"; "1"]%string then Some (S n)
        else None
  end.
Definition isValidRecursiveSlugsProperty (booleanAPs tokens : list string) : bool :=
  let tokens := filter (fun a => negb (String.eqb a "")) tokens in
  if existsb (String.eqb "$") tokens then true
  else match fold_right (slugsStep booleanAPs) (Some 0) tokens with Some n => Nat.eqb n 1 | None => false end.
