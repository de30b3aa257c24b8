(** * Model: tools/translateSafetySlugsSpecToSyntCompAIGFormat.py

    Translates a slugsin file without liveness sections to a circuit in the ASCII AIGER
    format.  Not modelled: the bound on the recursion depth of Python. *)

From Coq Require Import String Ascii ZArith Arith List Bool.
From Verif Require Import Parser Explicit FileSpec MinCore.
Import ListNotations.
Local Open Scope string_scope.

(** Outcome: a value, an exception, or exhaustion of the fuel of the model. *)
Inductive tres (A : Type) : Type :=
| TOk (a : A)
| TExc
| TFuel.
Arguments TOk {A}. Arguments TExc {A}. Arguments TFuel {A}.

Definition tbind {A B} (x : tres A) (f : A -> tres B) : tres B :=
  match x with TOk a => f a | TExc => TExc | TFuel => TFuel end.
Definition tget {A} (x : option A) : tres A := match x with Some a => TOk a | None => TExc end.

(** [s.find(" ")] together with the parts of [s] before and after the position found; [None] if
    there is no blank. *)
Fixpoint cutBlank (s : string) : option (string * string) :=
  match s with
  | EmptyString => None
  | String a s' =>
      if (a =? " ")%char then Some ("", s')
      else option_map (fun p => (String a (fst p), snd p)) (cutBlank s')
  end.
(** [s[0:-1]]. *)
Fixpoint butLast (s : string) : string :=
  match s with
  | EmptyString => ""
  | String a EmptyString => ""
  | String a s' => String a (butLast s')
  end.

(** int(s) of Python 2: white space around it, an optional sign, digits. *)
Definition pyInt (s : string) : option Z :=
  let s := trim s in
  let '(neg, s) :=
    match s with
    | String a s' => if (a =? "-")%char then (true, s') else if (a =? "+")%char then (false, s') else (false, s)
    | EmptyString => (false, s)
    end in
  let '(n, seen, rest) := takeDigits 0 false s in
  if negb seen then None
  else if negb (String.eqb rest "") then None
  else Some (if neg then (- Z.of_N n)%Z else Z.of_N n).

(** l[k] of Python; negative indices count from the end. *)
Definition pyNth {A} (l : list A) (k : Z) : option A :=
  let k := if (k <? 0)%Z then (Z.of_nat (List.length l) + k)%Z else k in
  if (k <? 0)%Z then None
  else if (Z.of_nat (List.length l) <=? k)%Z then None
  else nth_error l (Z.to_nat k).

(** Dictionaries: assignment and access. *)
Definition dict := list (string * nat).
Fixpoint dset (d : dict) (k : string) (v : nat) : dict :=
  match d with
  | [] => [(k, v)]
  | (k', v') :: d => if String.eqb k' k then (k, v) :: d else (k', v') :: dset d k v
  end.
Fixpoint dget (d : dict) (k : string) : option nat :=
  match d with
  | [] => None
  | (k', v) :: d => if String.eqb k' k then Some v else dget d k
  end.

(** n ^ 1 *)
Definition flip (n : nat) : nat := if Nat.even n then S n else pred n.

(** An element of the list [lines]: the numbers in the line. *)
Definition gline := list nat.
Definition showLine (l : gline) : string := String.concat " " (map showNat l).

Section RECURSE.
  Variable variables : dict.

  (** What recurseMakeAIGEncodingOfBooleanFormula returns (restOfFormula, the gate number,
      varNumbersUsedSoFar, nofGates), and the lines that it appends to [lines]. *)
  Definition rres := tres (string * nat * nat * nat * list gline)%type.

  (** recurseMakeAIGEncodingOfBooleanFormula, lines 19-82. *)
  Fixpoint aigRec (fuel : nat) (formula : string) (v n : nat) (mem : list nat) : rres :=
    match fuel with
    | O => TFuel
    | S fuel =>
        let '(tok, rest) := match cutBlank formula with Some p => p | None => (formula, "") end in
        if String.eqb tok "1" then TOk (rest, 1, v, n, [])
        else if String.eqb tok "0" then TOk (rest, 0, v, n, [])
        else if String.eqb tok "!" then
          tbind (aigRec fuel rest v n mem) (fun '(rest, g, v, n, ls) => TOk (rest, flip g, v, n, ls))
        else if String.eqb tok "|" then
          tbind (aigRec fuel rest v n mem) (fun '(rest, g, v, n, ls) =>
          tbind (aigRec fuel rest v n mem) (fun '(rest, g2, v, n, ls2) =>
            let v := v + 1 in
            TOk (rest, flip (v * 2), v, n + 1, ls ++ ls2 ++ [[v * 2; flip g; flip g2]])%list))
        else if String.eqb tok "^" then
          tbind (aigRec fuel rest v n mem) (fun '(rest, g, v, n, ls) =>
          tbind (aigRec fuel rest v n mem) (fun '(rest, g2, v, n, ls2) =>
            TOk (rest, (v + 3) * 2, v + 3, n + 3,
              ls ++ ls2 ++ [[v * 2 + 2; flip g; flip g2]; [v * 2 + 4; g; g2]; [v * 2 + 6; v * 2 + 3; v * 2 + 5]])%list))
        else if String.eqb tok "&" then
          tbind (aigRec fuel rest v n mem) (fun '(rest, g, v, n, ls) =>
          tbind (aigRec fuel rest v n mem) (fun '(rest, g2, v, n, ls2) =>
            let v := v + 1 in
            TOk (rest, v * 2, v, n + 1, ls ++ ls2 ++ [[v * 2; g; g2]])%list))
        else if String.eqb tok "$" then
          let '(num, rest) := match cutBlank rest with Some p => p | None => (butLast rest, rest) end in
          tbind (tget (pyInt num)) (fun parts =>
          (fix elems (k : nat) (left : Z) (rest : string) (v n : nat) (mem : list nat) (ls : list gline) : rres :=
             if (left <=? 0)%Z then
               tbind (tget (pyNth mem (Z.of_nat (List.length mem) - 1))) (fun g => TOk (rest, g, v, n, ls))
             else match k with
                  | O => TFuel
                  | S k =>
                      tbind (aigRec fuel rest v n mem) (fun '(rest, g, v, n, ls') =>
                        elems k (left - 1)%Z rest v n (mem ++ [g])%list (ls ++ ls')%list)
                  end) (S (String.length rest)) parts rest v n [] [])
        else if String.eqb tok "?" then
          let '(num, rest) := match cutBlank rest with Some p => p | None => (rest, "") end in
          tbind (tget (pyInt num)) (fun part =>
          tbind (tget (pyNth mem part)) (fun g => TOk (rest, g, v, n, [])))
        else tbind (tget (dget variables tok)) (fun g => TOk (rest, g, v, n, []))
    end.
End RECURSE.

(** The conjunction of the lines of a section and its encoding, lines 168-170, 173-175, 186-188 and
    191-193; the assertion raises an exception. *)
Fixpoint repeatAnd (n : nat) : string := match n with O => "" | S n => "& " ++ repeatAnd n end.
Definition encodeSection (variables : dict) (lines : list string) (v n : nat) : tres (nat * nat * nat * list gline) :=
  let formula := repeatAnd (List.length lines - 1) ++ String.concat " " lines in
  tbind (aigRec variables (S (String.length formula)) formula v n []) (fun '(rest, g, v, n, ls) =>
    if String.eqb rest "" then TOk (g, v, n, ls) else TExc).

(** The four lines in 178-181 and 196-199: [target] is the AND of [other] and the second literal. *)
Definition monitor (target other second : nat) (v gInit gTrans notFirst : nat) : list gline :=
  [[target; other; second];
   [v * 2 + 2; v * 2 + 5; v * 2 + 7];
   [v * 2 + 4; flip gInit; flip notFirst];
   [v * 2 + 6; flip gTrans; notFirst]].

(** The symbol table, lines 209-219: counting from [k]. *)
Fixpoint symbols (kind prefix : string) (k : nat) (names : list string) : list string :=
  match names with
  | [] => []
  | x :: names => (kind ++ showNat k ++ " " ++ prefix ++ x) :: symbols kind prefix (S k) names
  end.

(** Lines 115-117. *)
Definition one (ls : list string) : list string := match ls with [] => ["1"] | _ => ls end.

(** Lines 132-137: the input literals, from number [v]. *)
Fixpoint declareVars (names : list string) (v : nat) (d : dict) (ls : list gline) : nat * dict * list gline :=
  match names with
  | [] => (v, d, ls)
  | x :: names => declareVars names (v + 1) (dset d x ((v + 1) * 2)) (ls ++ [[(v + 1) * 2]])%list
  end.
(** Lines 150-159: the latches for the previous values.  The dictionary oldValueLatches is not
    used. *)
Fixpoint declareLatches (variables : dict) (names : list string) (v : nat) (d : dict) (ls : list gline) : tres (nat * dict * list gline) :=
  match names with
  | [] => TOk (v, d, ls)
  | x :: names =>
      tbind (tget (dget variables x)) (fun l =>
        declareLatches variables names (v + 1) (dset (dset d x ((v + 1) * 2)) (x ++ "'") l)
          (ls ++ [[(v + 1) * 2; l]])%list)
  end.

(** produceAIGFileFromSlugsFile, lines 88-227: the lines that are printed.  Simplified: the comment
    at the end repeats the lines of the file. *)
Definition aigMain (content : string) : tres (list string) :=
  tbind (tget (readCategories "" noLines (getlines content))) (fun cat =>
  if negb (List.length (cat SEnvLive) =? 0)%nat then TExc
  else if negb (List.length (cat SSysLive) =? 0)%nat then TExc
  else
  let notFirst := 1 * 2 + 2 in
  let names := (cat SInput ++ cat SOutput)%list in
  let '(v, variables, ls) := declareVars names 2 [] [] in
  let violated := v * 2 + 2 in
  let failureA := v * 2 + 4 in
  let failureG := v * 2 + 6 in
  let ls := (ls ++ [[notFirst; 1]])%list in
  tbind (declareLatches variables names (v + 3) [] ls) (fun '(v, variablesInTrans, ls) =>
  let ls := (ls ++ [[violated; flip failureA]] ++ [[failureG]])%list in
  tbind (encodeSection variables (one (cat SEnvInit)) v 0) (fun '(gEI, v, n, ls1) =>
  tbind (encodeSection variablesInTrans (one (cat SEnvTrans)) v n) (fun '(gET, v, n, ls2) =>
  let ls3 := monitor failureA (flip violated) (v * 2 + 2) v gEI gET notFirst in
  let n := n + 4 in
  let v := v + 3 in
  tbind (encodeSection variables (one (cat SSysInit)) v n) (fun '(gSI, v, n, ls4) =>
  tbind (encodeSection variablesInTrans (one (cat SSysTrans)) v n) (fun '(gST, v, n, ls5) =>
  let ls6 := monitor failureG failureA (v * 2 + 3) v gSI gST notFirst in
  let n := n + 4 in
  let v := v + 3 in
  TOk ((("aag " ++ String.concat " " (map showNat [v * 2; List.length variables; List.length variables + 2; 1; n]))%string)
       :: map showLine (ls ++ ls1 ++ ls2 ++ ls3 ++ ls4 ++ ls5 ++ ls6)
       ++ symbols "i" "" 0 (cat SInput) ++ symbols "i" "controllable_" (List.length (cat SInput)) (cat SOutput)
       ++ ["l0 IsNotFirstRound"]
       ++ symbols "l" "prev_" 1 names
       ++ [("l" ++ showNat (List.length names + 1) ++ " AssumptionsAlreadyViolated")%string; "o0 err"; "c";
           "This input file has been automatically translated by 'translateSafetySlugsSpecToSyntCompAIGFormat.py' from the following input file:"]
       ++ filter (fun l => negb (String.eqb (trim l) "")) (getlines content))%list)))))).
