(** * Model: tools/kResilientRealizabilityChecker.py, resilience with levels and a number of violations

    Lines 278-484 (the specification for the levels of the assumptions and the search over the levels)
    and lines 499-508 of the main part.  Not modelled: messages, time measurement, the optional files
    (lines 533-538; they are the files that the oracle is asked about).  The number of counter bits,
    which the script computes with floating-point logarithms (line 298), is a parameter
    [nofCounterBits] of the model.  The vector of an element, which consists of the levels and the
    number of violations, is a pair here. *)

From Coq Require Import String Ascii List Bool Arith ZArith.
From Verif Require Import Synth Parser Execute Structured StructFile Explicit Resilient.
Import ListNotations.
Local Open Scope string_scope.

(** binaryEncode, lines 278-286. *)
Fixpoint binaryEncode (nofBits : nat) (value : Z) : list bool :=
  match nofBits with
  | O => []
  | S nofBits => Z.odd value :: binaryEncode nofBits (Z.shiftr value 1)
  end.

(** "x"*n *)
Fixpoint timesStr (n : nat) (x : string) : string :=
  match n with O => "" | S n => x ++ timesStr n x end.
(** xrange(a,b) *)
Definition xrange (a b : Z) : list Z := map (fun i => (a + Z.of_nat i)%Z) (seq 0 (Z.to_nat (b - a))).
(** itertools.combinations(l,r) *)
Fixpoint combinations {A} (l : list A) (r : nat) : list (list A) :=
  match r, l with
  | O, _ => [[]]
  | S _, [] => []
  | S r', a :: l => (map (cons a) (combinations l r') ++ combinations l r)%list
  end.

(** "_ResilienceCounter_"+str(i) *)
Definition counterName (i : nat) : string := "_ResilienceCounter_" ++ showNat i.

(** Lines 327-339: the unaltered lines of the section ENV_TRANS, casesMasked and sysPrefix. *)
Fixpoint splitLevels (which : list nat) (envTrans : list string) (casesMasked : list string) (sysPrefix : string)
    : list string * (list string * string) :=
  match which, envTrans with
  | level :: which, line :: envTrans =>
      match level with
      | 0 => let '(kept, rest) := splitLevels which envTrans casesMasked sysPrefix in (line :: kept, rest)
      | 1 => splitLevels which envTrans (casesMasked ++ [line])%list ("| ! " ++ line ++ " " ++ sysPrefix)
      | _ => splitLevels which envTrans casesMasked ("| ! " ++ line ++ " " ++ sysPrefix)
      end
  | _, _ => ([], (casesMasked, sysPrefix))
  end.

(** Lines 346 and 365 without the operators before: the counter has the value. *)
Definition counterIs (nofCounterBits : nat) (value : Z) : string :=
  let enc := binaryEncode nofCounterBits value in
  timesStr nofCounterBits "& " ++
  String.concat " " (map (fun i => (if nth i enc false then "" else "! ") ++ counterName i)%string (seq 0 nofCounterBits) ++ ["1"])%list.
(** Lines 342-352. *)
Definition exceedLines (nofCounterBits maxCounterValue : nat) (casesMasked : list string) : list string :=
  flat_map (fun currentCounterValue =>
    let selectorPrefix := "| ! " ++ counterIs nofCounterBits currentCounterValue in
    map (fun combination =>
           let suffix := timesStr (length combination) "| " ++ String.concat " " (combination ++ ["0"])%list in
           selectorPrefix ++ " " ++ suffix)
      (combinations casesMasked (Z.to_nat (Z.of_nat maxCounterValue - currentCounterValue + 1))))
    (xrange (Z.of_nat maxCounterValue - Z.of_nat (length casesMasked) + 1) (Z.of_nat maxCounterValue + 1)).
(** recurseSmaller, lines 368-375; [pos] is the number of remaining bits (the parameter pos plus one). *)
Fixpoint recurseSmaller (reference pos : nat) : string :=
  match pos with
  | O => "1"
  | S p =>
      if Nat.testbit reference p then "| ! " ++ counterName p ++ "' " ++ recurseSmaller reference p
      else "& ! " ++ counterName p ++ "' " ++ recurseSmaller reference p
  end.
(** Lines 360-383. *)
Definition accumulateLines (nofCounterBits maxCounterValue : nat) (casesMasked : list string) : list string :=
  flat_map (fun fromValue =>
    flat_map (fun toValue =>
      let selectorPrefix := "! " ++ counterIs nofCounterBits (Z.of_nat fromValue) in
      let selectorPrefix := "| " ++ selectorPrefix ++ " " ++ recurseSmaller toValue nofCounterBits in
      map (fun selectedConstraints =>
             let thisCase := timesStr (length selectedConstraints) "| " ++ "0 " ++ String.concat " " (map (fun c => "! " ++ c) selectedConstraints) in
             "| " ++ selectorPrefix ++ " " ++ thisCase)
        (combinations casesMasked (length casesMasked - (toValue - fromValue))))
      (seq fromValue (min (S maxCounterValue) (fromValue + length casesMasked + 1) - fromValue)))
    (seq 0 (S maxCounterValue)).
(** writeMixedRobustSpecification, lines 288-393: the lines of the file. *)
Definition mixedRobustLines (nofCounterBits : nat) (lines : lineDict) (essentialEnvTrans : list string) (which : list nat) (maxCounterValue : nat) : list string :=
  let '(kept, (casesMasked, sysPrefix)) := splitLevels which (lines "[ENV_TRANS]") [] "" in
  let counters := seq 0 nofCounterBits in
  ("[OUTPUT]" :: lines "[OUTPUT]" ++ map counterName counters ++ [""]
   ++ flat_map (fun copyCategory => copyCategory :: lines copyCategory ++ [""]) ["[INPUT]"; "[ENV_INIT]"]
   ++ "[ENV_LIVENESS]" :: map (fun a => timesStr nofCounterBits "| " ++ String.concat " " (map counterName counters) ++ " " ++ a)%string (lines "[ENV_LIVENESS]") ++ [""]
   ++ "[SYS_INIT]" :: lines "[SYS_INIT]" ++ map (fun i => "! " ++ counterName i)%string counters
   ++ "" :: "[ENV_TRANS]" :: essentialEnvTrans ++ kept ++ exceedLines nofCounterBits maxCounterValue casesMasked
   ++ "" :: "[SYS_TRANS]" :: lines "[SYS_TRANS]" ++ accumulateLines nofCounterBits maxCounterValue casesMasked
   ++ "" :: "[SYS_LIVENESS]" :: map (fun line => sysPrefix ++ line)%string (lines "[SYS_LIVENESS]")
   ++ [sysPrefix ++ timesStr nofCounterBits "& " ++ String.concat " " (map (fun i => "! " ++ counterName i ++ "'")%string counters ++ ["1"])%list]%string)%list.
Definition mixedRobustSpecification (nofCounterBits : nat) (lines : lineDict) (essentialEnvTrans : list string) (which : list nat) (maxCounterValue : nat) : string :=
  String.concat "" (map (fun l => l ++ String "010" "") (mixedRobustLines nofCounterBits lines essentialEnvTrans which maxCounterValue)).

Section Search.
  Variable ord : nat -> bool.
  (** Line 298, as a function of maxCounterValue. *)
  Variable nofCounterBits : nat -> nat.

  (** checkMixedRobustImplementability, lines 396-436. *)
  Definition checkMixedRobustImplementability (lines : lineDict) (essentialEnvTrans : list string) (x : list nat * nat) : pyres bool :=
    match executeFile ord (mixedRobustSpecification (nofCounterBits (snd x)) lines essentialEnvTrans (fst x) (snd x)) with
    | POk Realizable => Ret true
    | POk Unrealizable => Ret false
    | _ => Raise
    end.

  (** MixedLatticeElement, lines 440-479: __eq__, isLeqThan, getSuccessors. *)
  Fixpoint levelsEq (x y : list nat) : bool :=
    match x, y with
    | [], [] => true
    | a :: x, b :: y => Nat.eqb a b && levelsEq x y
    | _, _ => false
    end.
  Definition mixedEq (x y : list nat * nat) : bool := levelsEq (fst x) (fst y) && Nat.eqb (snd x) (snd y).
  Fixpoint levelsLeq (x y : list nat) : bool :=
    match x, y with
    | [], _ => true
    | a :: x, b :: y => Nat.leb a b && levelsLeq x y
    | _ :: _, [] => false
    end.
  Definition mixedLeq (x y : list nat * nat) : bool := levelsLeq (fst x) (fst y) && Nat.leb (snd x) (snd y).
  Fixpoint levelSuccessors (x : list nat) : list (list nat) :=
    match x with
    | [] => []
    | a :: x => ((if Nat.ltb a 2 then [S a :: x] else []) ++ map (cons a) (levelSuccessors x))%list
    end.
  (** Lines 464-468: isLeq and isLess. *)
  Fixpoint isLeqRef (x : list nat) (reference : list bool) : bool :=
    match x, reference with
    | a :: x, r :: reference => (Nat.eqb a 0 || r) && isLeqRef x reference
    | _, _ => true
    end.
  Fixpoint isLessRef (x : list nat) (reference : list bool) : bool :=
    match x, reference with
    | a :: x, r :: reference => (Nat.ltb 0 a && negb r) || isLessRef x reference
    | _, _ => false
    end.
  Definition mixedSuccessors (setOfInftyResilientSolutions : list (list bool)) (x : list nat * nat) : list (list nat * nat) :=
    let '(levels, k) := x in
    (map (fun levels => (levels, k)) (levelSuccessors levels)
     ++ (if forallb (fun reference => isLessRef levels reference || negb (isLeqRef levels reference)) setOfInftyResilientSolutions
         then [(levels, S k)] else []))%list.

  (** findMixedRobustSolutions, lines 438-484, for at least one element of inftyRobustSolutions. *)
  Definition findMixedRobustSolutions (fuel : nat) (lines : lineDict) (essentialEnvTrans : list string) (inftyRobustSolutions : list (list bool))
      : pyres (list (list nat * nat)) :=
    match inftyRobustSolutions with
    | [] => Raise
    | first :: _ =>
        let startingSolution := (map (fun _ => 0) first, 1) in
        let oldSolutions := map (fun k => (map (fun a : bool => if a then 2 else 0) k, 1)) inftyRobustSolutions in
        getFrontierSetInLattice (list nat * nat) mixedEq mixedLeq (mixedSuccessors inftyRobustSolutions)
          (checkMixedRobustImplementability lines essentialEnvTrans) oldSolutions fuel startingSolution
    end.

  (** The main part, lines 499-508; None: the message that the specification is absolutely
      unrealizable.  Diverge if the depth of the recursion of the second search reaches [fuel]. *)
  Definition mixedAnalysis (fuel : nat) (content : string) : pyres (option (list (list nat * nat))) :=
    pybind (findInftyRobustSolutions ord content) (fun inftyRobustSolutions =>
      match inftyRobustSolutions with
      | [] => Ret None
      | _ =>
          pybind (readSpec "" false emptyDict [] (getlines content)) (fun '(lines, essentialEnvTrans) =>
            pybind (findMixedRobustSolutions fuel lines essentialEnvTrans inftyRobustSolutions) (fun r => Ret (Some r)))
      end).
End Search.
