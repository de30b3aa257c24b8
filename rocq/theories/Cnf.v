(** * CNF form of the specification

    Model of XComputeCNFFormOfTheSpecification::execute
    (/repo/src/extensionComputeCNFFormOfTheSpecification.hpp:35-117).  Simplifications:
    the output is a list of lines of numbers (layout and texts of the prefixes are not
    modelled), and int is unbounded. *)

From Coq Require Import String ZArith Arith List Bool.
From Verif Require Import BDD Loop VarTypes Synth Explicit.
Import ListNotations.

(** Lines of the output.  Kind of clauses: lines 57-59; kind of liveness
    conditions: lines 82-83. *)
Inductive clauseKind : Set := SafetyGuarantee | SafetyAssumption | Init.
Inductive liveKind : Set := LivenessGuarantee | LivenessAssumption.
Inductive cnfLine : Type :=
| VarLine (output : bool) (name : string) (pre post : nat)
| ClauseLine (k : clauseKind) (clause : list Z)
| LiveLine (k : liveKind) (cubes : list (list Z)).

(** Results: output, exception, or loop not finished within the fuel. *)
Inductive cnfRes (A : Type) : Type :=
| COk (a : A)
| CExn
| CFuel.
Arguments COk {A} a.
Arguments CExn {A}.
Arguments CFuel {A}.

Definition nameOf (c : ctx) (i : nat) : string := nth i (varNames c) EmptyString.
Definition typeOf (c : ctx) (i : nat) : VariableType := nth i (varTypes c) NoneVariableType.

(** The variable lists, lines 38-53.  The index i is even in every iteration; the
    argument is the number of remaining iterations. *)
Fixpoint varLines (c : ctx) (n : nat) (i : nat) : cnfRes (list cnfLine) :=
  if negb (Nat.ltb i (length (varNames c))) then COk [] else
  match n with
  | O => CFuel
  | S n =>
      if Nat.eqb i (length (varNames c) - 1) then CExn else
      let line out := VarLine out (nameOf c i) (i + 1) (i + 2) in
      let next out (post : VariableType) :=
        if negb (vt_eqb (typeOf c (i + 1)) post) then CExn else
        if negb (String.eqb (nameOf c (i + 1)) (nameOf c i ++ "'")) then CExn else
        match varLines c n (i + 2) with
        | COk ls => COk (line out :: ls)
        | r => r
        end in
      if vt_eqb (typeOf c i) PreInput then next false PostInput
      else if vt_eqb (typeOf c i) PreOutput then next true PostOutput
      else CExn
  end.

(** One variable of the loop that enlarges a cube and prints its literals, lines
    63-72; the state is (thisCube, literals). *)
Definition clauseStep (rest found : BF) (st : BF * list Z) (i : nat) : BF * list Z :=
  let '(cube, lits) := st in
  let candidate := bexists [i] cube in
  if isFalse (band (band candidate rest) (bnot found)) then (candidate, lits)
  else if isFalse (band cube (bvar i)) then (cube, lits ++ [(Z.of_nat i + 1)%Z])
  else (cube, lits ++ [(- Z.of_nat i - 1)%Z]).
Definition allVars (c : ctx) : list nat := seq 0 (length (varTypes c)).

(** One round of the loop over the cubes, lines 60-75; the state is (found, clauses). *)
Definition clauseBody (c : ctx) (rest : BF) (st : BF * list (list Z)) :
    step (BF * list (list Z)) (BF * list (list Z)) :=
  let '(found, out) := st in
  if bf_eqb (bor rest found) btrue then Done (found, out) else
  let cube0 := determinize (band (bnot rest) (bnot found)) (allVars c) in
  let '(cube, lits) := fold_left (clauseStep rest found) (allVars c) (cube0, []) in
  Cont (bor found cube, out ++ [lits]).
(** Lines 57-76. *)
Definition clauses (c : ctx) (rest : BF) : cnfRes (list (list Z)) :=
  match run (clauseBody c rest) (fpFuel c) (bfalse, []) with
  | None => CFuel
  | Some (found, out) => if bf_eqb found (bnot rest) then COk out else CExn
  end.

(** normsign, lines 29-33 (literals are not 0). *)
Definition normsign (x : Z) : Z := if (x <? 0)%Z then (-1)%Z else 1%Z.

(** Liveness conditions: one variable, lines 92-103; the state is (thisCube, literals,
    allPostSoFar). *)
Definition isPostType (t : VariableType) : bool := vt_eqb t PostInput || vt_eqb t PostOutput.
Definition cubeStep (c : ctx) (it : BF) (st : BF * (list Z * bool)) (i : nat) : BF * (list Z * bool) :=
  let '(cube, (lits, allPost)) := st in
  let candidate := bexists [i] cube in
  if isFalse (band candidate (bnot it)) then (candidate, (lits, allPost))
  else if isFalse (band cube (bvar i)) then (cube, (lits ++ [(- Z.of_nat i - 1)%Z], allPost && isPostType (typeOf c i)))
  else (cube, (lits ++ [(Z.of_nat i + 1)%Z], allPost && isPostType (typeOf c i))).
(** Lines 87-112. *)
Definition cubeBody (c : ctx) (it : BF) (st : BF * list (list Z)) :
    step (BF * list (list Z)) (BF * list (list Z)) :=
  let '(found, out) := st in
  if bf_eqb (band it (bnot found)) bfalse then Done (found, out) else
  let cube0 := determinize (band it (bnot found)) (allVars c) in
  let '(cube, (lits, allPost)) := fold_left (cubeStep c it) (allVars c) (cube0, ([], true)) in
  Cont (bor found cube,
        out ++ [map (fun l => if allPost : bool then (l - normsign l)%Z else l) lits]).
(** Lines 84-115. *)
Definition cubes (c : ctx) (it : BF) : cnfRes (list (list Z)) :=
  match run (cubeBody c it) (fpFuel c) (bfalse, []) with
  | None => CFuel
  | Some (found, out) => if bf_eqb found it then COk out else CExn
  end.

Definition cbind {A B} (r : cnfRes A) (k : A -> cnfRes B) : cnfRes B :=
  match r with
  | COk a => k a
  | CExn => CExn
  | CFuel => CFuel
  end.
Fixpoint liveLines (c : ctx) (k : liveKind) (its : list BF) : cnfRes (list cnfLine) :=
  match its with
  | [] => COk []
  | it :: its => cbind (cubes c it) (fun l => cbind (liveLines c k its) (fun ls => COk (LiveLine k l :: ls)))
  end.

(** execute, lines 35-117. *)
Definition computeCNF (c : ctx) : cnfRes (list cnfLine) :=
  cbind (varLines c (S (length (varNames c))) 0) (fun vs =>
  cbind (clauses c (safetySys c)) (fun c0 =>
  cbind (clauses c (safetyEnv c)) (fun c1 =>
  cbind (clauses c (band (initEnv c) (initSys c))) (fun c2 =>
  cbind (liveLines c LivenessGuarantee (livenessGuarantees c)) (fun l0 =>
  cbind (liveLines c LivenessAssumption (livenessAssumptions c)) (fun l1 =>
  COk (vs ++ map (ClauseLine SafetyGuarantee) c0 ++ map (ClauseLine SafetyAssumption) c1 ++
       map (ClauseLine Init) c2 ++ l0 ++ l1))))))).
