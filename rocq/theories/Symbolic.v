(** * Symbolic strategies

    Model of class XExtractSymbolicStrategy
    (/repo/src/extensionExtractSymbolicStrategy.hpp).  [encoded] is the template
    parameter systemGoalEncoded: true for --simpleSymbolicStrategy, false for
    --symbolicStrategy (/repo/src/main.cpp:125-248).

    Simplifications: unsigned 32-bit counters are natural numbers (equal as long
    as there are less than 2^31 liveness guarantees); the serialisation of the BDD
    after the header (mgr.writeBDDToFile, DDDMP) is not modelled: the result is the
    Boolean function, the variable names and the header text. *)

From Coq Require Import String Arith List Bool.
From Verif Require Import BDD Loop VarTypes Synth Solvers AutSpec Explicit.
Import ListNotations.
Open Scope list_scope.

(** variableNames, variableTypes, counterVarNumbersPre and counterVarNumbersPost. *)
Record symVars : Type := mkSymVars {
  sv_names : list string;
  sv_types : list VariableType;
  sv_pre : list nat;
  sv_post : list nat
}.

(** addVariable, /repo/src/variableManager.cpp:117-123. *)
Definition addCounterVar (name : string) (v : symVars) : symVars * nat :=
  (mkSymVars (sv_names v ++ [name]) (sv_types v ++ [SymbolicStrategyCounterVar]) (sv_pre v) (sv_post v),
   length (sv_types v)).

Definition bitName (k : nat) : string := ("_jx_b" ++ showNat k)%string.

(** One round of the loop that allocates counter variables, lines 105-110. *)
Definition allocBit (encoded : bool) (v : symVars) : symVars :=
  let name := bitName (length (sv_pre v)) in
  let '(v, n) := addCounterVar name v in
  let v := mkSymVars (sv_names v) (sv_types v) (sv_pre v ++ [n]) (sv_post v) in
  if encoded then
    let '(v, n) := addCounterVar (name ++ "'")%string v in
    mkSymVars (sv_names v) (sv_types v) (sv_pre v) (sv_post v ++ [n])
  else v.

(** The loop for(i=1; i<=goals; i=i<<1), lines 105-110; [None] if it needs more
    rounds than [fuel]. *)
Fixpoint allocLoop (fuel : nat) (encoded : bool) (goals i : nat) (v : symVars) : option symVars :=
  match fuel with
  | O => None
  | S fuel => if Nat.leb i goals then allocLoop fuel encoded goals (2 * i) (allocBit encoded v) else Some v
  end.

(** The conjunction over the counter bits, lines 121-127, 132-139 and 141-148. *)
Definition encodingStep (value : nat) (acc : BF) (e : nat * nat) : BF :=
  band acc (if Nat.testbit value (fst e) then bvar (snd e) else bnot (bvar (snd e))).
Definition encoding (vars : list nat) (value : nat) : BF :=
  fold_left (encodingStep value) (combine (seq 0 (length vars)) vars) btrue.

(** One round of the loop over the goals, lines 119-161; [selector] is
    goalTransitionSelectorVar. *)
Definition combineStep (encoded : bool) (c : ctx) (strategy : nat -> BF) (v : symVars) (selector : nat)
    (acc : BF) (i : nat) : BF :=
  let thisEncoding := encoding (sv_pre v) i in
  let goal := nth i (livenessGuarantees c) bfalse in
  if encoded then
    let postStay := encoding (sv_post v) i in
    let postGo := encoding (sv_post v) (Nat.modulo (i + 1) (length (livenessGuarantees c))) in
    let theseTrans := bor (band postGo goal) (band postStay (bnot goal)) in
    bor acc (band (band thisEncoding (strategy i)) theseTrans)
  else bor acc (band (band thisEncoding (strategy i)) (bor (bnot (bvar selector)) goal)).
Definition combined (encoded : bool) (c : ctx) (strategy : nat -> BF) (v : symVars) (selector : nat) : BF :=
  fold_left (combineStep encoded c strategy v selector) (seq 0 (length (livenessGuarantees c))) bfalse.

(** The header, lines 163-197. *)
Definition headerVar (encoded : bool) (v : symVars) (i : nat) : string :=
  let name := nth i (sv_names v) EmptyString in
  let ty := nth i (sv_types v) NoneVariableType in
  sconcat ["#"; tab; showNat i; ": ";
    (if encoded && (inherits ty PreInput || inherits ty PostInput) then "in_" else ""); name; nl]%string.
Definition header (encoded : bool) (goals : nat) (v : symVars) : string :=
  sconcat (["# This file is a BDD exported by the SLUGS"; nl; "#"; nl; "# This BDD is a strategy."; nl]%string ++
    (if encoded then [] else ["#"; nl; "# This header contains extra information used by LTLMoP's BDDStrategy."; nl]%string) ++
    ["# Currently, the only metadata is 1) the total number of system goals"; nl;
     "# and 2) the mapping between variable numbers and proposition names."; nl; "#"; nl;
     "# Some special variables are also added:"; nl;
     "#       - `_jx_b*` are used as a binary vector (b0 is LSB) to indicate"; nl;
     "#         the index of the currently-pursued goal."; nl]%string ++
    (if encoded then [] else
     ["#       - `strat_type` is a binary variable used to indicate whether we are"; nl;
      "#          moving closer to the current goal (0) or transitioning to the next goal (1)"; nl; "#"; nl]%string) ++
    ["# Num goals: "; showNat goals; nl; "# Variable names:"; nl]%string ++
    map (headerVar encoded v) (seq 0 (length (sv_types v))) ++
    ["#"; nl; "# For information about the DDDMP format, please see:"; nl;
     "#    http://www.cs.uleth.ca/~rice/cudd_docs/dddmp/dddmpAllFile.html#dddmpDump.c"; nl; "#"; nl;
     "# For information about how this file is generated, please see the SLUGS source."; nl; "#"; nl]%string).

(** What is handed to mgr.writeBDDToFile (line 206). *)
Record symResult : Type := mkSymResult {
  sy_names : list string;
  sy_header : string;
  sy_rel : BF
}.

(** computeAndPrintSymbolicStrategy, lines 76-208.  The function [init] (line 83) is
    never used.  The loop over the counter bits needs less than goals+2 rounds. *)
Definition extractSymbolic (encoded : bool) (c : ctx) (data : list (nat * BF)) : option symResult :=
  let goals := length (livenessGuarantees c) in
  match allocLoop (S (S goals)) encoded goals 1 (mkSymVars (varNames c) (varTypes c) [] []) with
  | None => None
  | Some v =>
      let '(v, selector) := if encoded then (v, 0) else addCounterVar "strat_type" v in
      Some (mkSymResult (sv_names v) (header encoded goals v) (combined encoded c (positional c data) v selector))
  end.

(** execute, lines 58-67 (an output file name has been given). *)
Definition computeSymbolic (alg : algorithm) (robotics encoded : bool) (c : ctx) : option (verdict * option symResult) :=
  match solve alg c with
  | None => None
  | Some (w, data) =>
      let v := verdictOf (if robotics then initialCheckRobotics c w else initialCheck c w) in
      match v with
      | Realizable =>
          match extractSymbolic encoded c data with
          | None => None
          | Some out => Some (v, Some out)
          end
      | _ => Some (v, None)
      end
  end.
