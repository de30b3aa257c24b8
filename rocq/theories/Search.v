(** * Model: tools/binaryRealizabilitySearch.py and tools/multiDimensionalRealizabilitySearch.py

    Both tools call a script for some values of parameters of a specification and look for the best
    values for which slugs reports realizability.  The script is a function from the parameters to
    the lines of its output and its exit code.  Not modelled: progress messages, measured times, the
    parsing of the command lines.  Python's integers are unbounded. *)

From Coq Require Import String Ascii ZArith List Bool.
From Verif Require Import Loop Parser Explicit.
Import ListNotations.
Local Open Scope Z_scope.

(** checkRealizability, binaryRealizabilitySearch.py:13-49 and
    multiDimensionalRealizabilitySearch.py:12-48.  [None]: an error message. *)
Definition resultRealizable : string := "RESULT: Specification is realizable.".
Definition resultUnrealizable : string := "RESULT: Specification is unrealizable.".
Definition checkRealizability (output : list string * Z) : option bool :=
  let '(lines, code) := output in
  let nofRealizable := length (filter (fun l => String.eqb (trim l) resultRealizable) lines) in
  let nofUnrealizable := length (filter (fun l => String.eqb (trim l) resultUnrealizable) lines) in
  if negb (code =? 0) then None
  else if Nat.ltb 1 (nofRealizable + nofUnrealizable) then None
  else if Nat.eqb (nofRealizable + nofUnrealizable) 0 then None
  else Some (Nat.ltb 0 nofRealizable).

(** ** binaryRealizabilitySearch.py *)

Inductive report : Type :=
| Minimum (v : Z)            (* "The minimum value for realizability is" *)
| Maximum (v : Z)            (* "The maximum value for realizability is" *)
| TotallyUnrealizable
| ScriptError.

Section BINARY.
  Variable script : Z -> list string * Z.
  Variable monotone : bool.

  (** The loop in lines 81-104 with minValue, maxValue and the parameters of the calls of the script
      so far; then the final test in lines 107-119. *)
  Definition binaryBody (s : Z * Z * list Z) : step (Z * Z * list Z) (list Z * report) :=
    let '(minValue, maxValue, calls) := s in
    if minValue <? maxValue then
      let testValue := (minValue + maxValue) / 2 in
      let testValue := if negb monotone && (0 <? (minValue + maxValue) mod 2) then testValue + 1 else testValue in
      let calls := (calls ++ [testValue])%list in
      match checkRealizability (script testValue) with
      | Some true => if monotone then Cont (minValue, testValue, calls) else Cont (testValue, maxValue, calls)
      | Some false => if monotone then Cont (testValue + 1, maxValue, calls) else Cont (minValue, testValue - 1, calls)
      | None => Done (calls, ScriptError)
      end
    else
      let calls := (calls ++ [maxValue])%list in
      match checkRealizability (script maxValue) with
      | Some true => Done (calls, if monotone then Minimum maxValue else Maximum maxValue)
      | Some false => Done (calls, TotallyUnrealizable)
      | None => Done (calls, ScriptError)
      end.

  (** Lines 79-119.  The second argument bounds the number of iterations; [None]: too few. *)
  Definition binarySearch (minValue maxValue : Z) : option (list Z * report) :=
    run binaryBody (Z.to_nat (Z.log2_up (Z.max 1 (maxValue - minValue))) + 1) (minValue, maxValue, []).
End BINARY.

(** ** multiDimensionalRealizabilitySearch.py *)

(** tupleComparator, lines 52-64; the tuples have the same lengths. *)
Fixpoint compareFrom (canBeSmaller canBeLarger : bool) (t1 t2 : list Z) : option bool :=
  match t1, t2 with
  | a :: t1, b :: t2 =>
      if a <? b then compareFrom canBeSmaller false t1 t2
      else if b <? a then compareFrom false canBeLarger t1 t2
      else compareFrom canBeSmaller canBeLarger t1 t2
  | _, _ => if canBeSmaller then Some true else if canBeLarger then Some false else None
  end.
Definition tupleComparator (t1 t2 : list Z) : option bool := compareFrom true true t1 t2.
Definition isTrue (x : option bool) : bool := match x with Some true => true | _ => false end.

(** Python's xrange(lo,hi) and itertools.product. *)
Definition xrange (lo hi : Z) : list Z := map (fun k => lo + Z.of_nat k) (seq 0 (Z.to_nat (hi - lo))).
Fixpoint product (ls : list (list Z)) : list (list Z) :=
  match ls with
  | [] => [[]]
  | l :: ls => flat_map (fun a => map (cons a) (product ls)) l
  end.

(** An argument of the search: minimum, maximum, and true for MONOTONE. *)
Definition parameter : Type := Z * Z * bool.

(** Lines 74-81; [None]: an assertion fails. *)
Fixpoint normalize (ps : list parameter) : option (list (Z * Z)) :=
  match ps with
  | [] => Some []
  | (mini, maxi, direction) :: ps =>
      if (0 <=? mini) && (0 <=? maxi) then
        option_map (cons (if direction : bool then (mini, maxi) else (-1 * maxi, -1 * mini))) (normalize ps)
      else None
  end.

(** Lines 132-137 and 146-151. *)
Fixpoint translate (ps : list parameter) (t : list Z) : list Z :=
  match ps, t with
  | (_, _, direction) :: ps, a :: t => (if direction : bool then a else -1 * a) :: translate ps t
  | _, _ => []
  end.

(** The ranges of the products in lines 107 and 116. *)
Fixpoint above (types : list (Z * Z)) (t : list Z) : list (list Z) :=
  match types, t with
  | (_, maxi) :: types, a :: t => xrange a (maxi + 1) :: above types t
  | _, _ => []
  end.
Fixpoint below (types : list (Z * Z)) (t : list Z) : list (list Z) :=
  match types, t with
  | (mini, _) :: types, a :: t => xrange mini (a + 1) :: below types t
  | _, _ => []
  end.

Section MULTI.
  Variable script : list Z -> list string * Z.
  Variable parameters : list parameter.

  (** Lines 94-102: is [t] decided by an earlier answer? *)
  Definition coveredNeg (negative : list (list Z)) (t : list Z) : bool :=
    existsb (fun c => isTrue (tupleComparator t c)) negative.
  Definition coveredPos (positive : list (list Z)) (t : list Z) : bool :=
    existsb (fun c => isTrue (tupleComparator c t)) positive.

  (** Lines 85-128: the tuple whose test decides most others; [best] is bestTuple with bestTupleValue. *)
  Definition consider (types : list (Z * Z)) (negative positive : list (list Z))
      (best : option (list Z * Z)) (t : list Z) : option (list Z * Z) :=
    if coveredNeg negative t || coveredPos positive t then best
    else
      let distNeg := Z.of_nat (length (filter (fun b => negb (coveredPos positive b)) (product (above types t)))) in
      let distPos := Z.of_nat (length (filter (fun b => negb (coveredNeg negative b)) (product (below types t)))) in
      let thisValue := Z.min distNeg distPos in
      if (0 <? distPos) || (0 <? distNeg) then
        if match best with Some (_, v) => v | None => -1 end <=? thisValue then Some (t, thisValue) else best
      else best.
  Definition findBest (types : list (Z * Z)) (negative positive : list (list Z)) : option (list Z * Z) :=
    fold_left (consider types negative positive)
      (product (map (fun p => xrange (fst p) (snd p + 1)) types)) None.

  (** The loop in lines 83-172; the third component of the state are the parameters of the calls of
      the script so far.  bestTupleValue is -1 (line 130) iff there is no bestTuple. *)
  Definition multiState : Type := list (list Z) * list (list Z) * list (list Z).
  Definition multiBody (types : list (Z * Z)) (s : multiState) : step multiState (list (list Z) * list (list Z)) :=
    let '(negative, positive, calls) := s in
    match findBest types negative positive with
    | None => Done (calls, map (translate parameters) positive)
    | Some (bestTuple, _) =>
        let query := translate parameters bestTuple in
        let calls := (calls ++ [query])%list in
        match checkRealizability (script query) with
        | Some true =>
            Cont (negative, (filter (fun a => negb (isTrue (tupleComparator bestTuple a))) positive ++ [bestTuple])%list, calls)
        | Some false =>
            Cont ((filter (fun a => negb (isTrue (tupleComparator a bestTuple))) negative ++ [bestTuple])%list, positive, calls)
        | None => Cont (negative, positive, calls)
        end
    end.

  (** runSearch, lines 66-172, with at most [2 ^ n] iterations.  [None]: an assertion fails, or more
      iterations are needed. *)
  Definition runSearch (n : nat) : option (list (list Z) * list (list Z)) :=
    match normalize parameters with
    | None => None
    | Some types => run (multiBody types) n ([], [], [])
    end.
End MULTI.
