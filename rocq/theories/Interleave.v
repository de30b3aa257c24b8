(** * Model: extensionInterleave.hpp (--analyzeInterleaving)

    Not modelled: strategyDumpingData (it is filled, but not used), the numbers written to
    stderr, the file /tmp/wp.dot.  An assert has no effect in the released build. *)

From Coq Require Import String Arith List Bool.
From Verif Require Import BDD Loop VarTypes Synth.
Import ListNotations.

(** ** computeWinningPositions, lines 85-163 *)

(** varCubePostOutputB and varCubePostOutputA, lines 57-58. *)
Definition varCubePostOutputB (c : ctx) : list nat := varsOf (varTypes c) [PostOutputBefore].
Definition varCubePostOutputA (c : ctx) : list nat := varsOf (varTypes c) [PostOutputAfter].

(** The enforceable predecessor, line 137. *)
Definition coxBA (c : ctx) (paths : BF) : BF :=
  bexists (varCubePostOutputB c) (bforall (varCubePostInput c) (bexists (varCubePostOutputA c)
    (bimp (safetyEnv c) (band (safetySys c) paths)))).
(** Inner greatest fixed point, lines 127-138. *)
Definition nu0BodyI (c : ctx) (live asm : BF) (st : BF * unit) : step (BF * unit) (BF * unit) :=
  fpUpdate (fst st) (coxBA c (bor live (band (swapPrePost c (fst st)) (bnot asm)))) tt.
Definition nu0LoopI (c : ctx) (live asm : BF) : option BF := option_map fst (run (nu0BodyI c live asm) (fpFuel c) (btrue, tt)).
(** Loop over the liveness assumptions, lines 118-146. *)
Fixpoint asmLoopI (c : ctx) (live : BF) (asms : list BF) (good : BF) : option BF :=
  match asms with
  | [] => Some good
  | a :: asms =>
      match nu0LoopI c live a with
      | None => None
      | Some nu0 => asmLoopI c live asms (bor good nu0)
      end
  end.
(** Middle least fixed point, lines 109-150; the state is (mu1, livetransitions). *)
Definition mu1BodyI (c : ctx) (st : BF * BF) : step (BF * BF) (BF * BF) :=
  let live := bor (snd st) (swapPrePost c (fst st)) in
  match asmLoopI c live (livenessAssumptions c) (fst st) with
  | None => Abort
  | Some good => fpUpdate (fst st) good live
  end.
Definition mu1LoopI (c : ctx) (live : BF) : option BF := option_map fst (run (mu1BodyI c) (fpFuel c) (bfalse, live)).
(** Loop over the liveness guarantees, lines 101-154. *)
Fixpoint goalLoopI (c : ctx) (nu2 : BF) (goals : list BF) (next : BF) : option BF :=
  match goals with
  | [] => Some next
  | g :: goals =>
      match mu1LoopI c (band g (swapPrePost c nu2)) with
      | None => None
      | Some mu1 => goalLoopI c nu2 goals (band next mu1)
      end
  end.
(** Outer greatest fixed point, lines 88-158. *)
Definition nu2BodyI (c : ctx) (st : BF * unit) : step (BF * unit) (BF * unit) :=
  match goalLoopI c (fst st) (livenessGuarantees c) btrue with
  | None => Abort
  | Some next => fpUpdate (fst st) next tt
  end.
Definition winningI (c : ctx) : option BF := option_map fst (run (nu2BodyI c) (fpFuel c) (btrue, tt)).

(** GR1Context::checkRealizability, synthesisAlgorithm.cpp:94-110, with the overriding
    computeWinningPositions of the plugin. *)
Definition checkI (c : ctx) : verdict :=
  match winningI c with
  | None => NoTermination
  | Some w => verdictOf (initialCheck c w)
  end.

(** ** execute, lines 171-226 *)

(** The context with other variable types, after computeVariableInformation. *)
Definition withTypes (c : ctx) (types : list VariableType) : ctx :=
  mkCtx (varNames c) types (livenessAssumptions c) (livenessGuarantees c) (initEnv c) (initSys c) (safetyEnv c) (safetySys c).
(** Lines 174-181: doesVariableInheritType refers to the types before the loop. *)
Definition defaultType (t : VariableType) : VariableType :=
  let t' := if inherits t PreOutput then PreOutputAfter else t in
  if inherits t PostOutput then PostOutputAfter else t'.
(** variableTypes[i] = t. *)
Fixpoint setType (i : nat) (t : VariableType) (types : list VariableType) : list VariableType :=
  match types, i with
  | [], _ => []
  | _ :: types, O => t :: types
  | u :: types, S i => u :: setType i t types
  end.
(** State of the loop of lines 193-209. *)
Record tryState : Type := mkTry {
  variableTypes : list VariableType;
  variableTypesAll : list VariableType; (* variableTypes at the last call of computeVariableInformation *)
  foundOne : option bool (* [None]: not initialised *)
}.
Definition tryBefore (c : ctx) (st : tryState) (i : nat) : option tryState :=
  if inherits (nth i (variableTypesAll st) NoneVariableType) PreOutput then
    let types := setType (i + 1) PostOutputBefore (setType i PreOutputBefore (variableTypes st)) in
    match checkI (withTypes c types) with
    | Realizable => Some (mkTry types types (Some true))
    | Unrealizable => Some (mkTry (setType (i + 1) PostOutputAfter (setType i PreOutputAfter types)) types (foundOne st))
    | _ => None
    end
  else Some st.
Fixpoint tryAll (c : ctx) (is : list nat) (st : tryState) : option tryState :=
  match is with
  | [] => Some st
  | i :: is => match tryBefore c st i with None => None | Some st => tryAll c is st end
  end.
(** The names printed, lines 213-217. *)
Definition namesBefore (c : ctx) (types : list VariableType) : list string :=
  map (fun i => nth i (varNames c) EmptyString)
    (filter (fun i => inherits (nth i types NoneVariableType) PreOutputBefore) (seq 0 (length types))).
(** The report; [Uninitialised]: line 211 reads foundOne, which has no value. *)
Inductive report : Type :=
| NotRealizable
| StaysRealizable (names : list string)
| BecomesUnrealizable
| Uninitialised.
(** [None]: exception or no termination. *)
Definition interleave (c : ctx) : option report :=
  let types := map defaultType (varTypes c) in
  match checkI (withTypes c types) with
  | Realizable =>
      match tryAll c (seq 0 (length types)) (mkTry types types None) with
      | None => None
      | Some st =>
          match foundOne st with
          | Some true => Some (StaysRealizable (namesBefore c (variableTypesAll st)))
          | Some false => Some BecomesUnrealizable
          | None => Some Uninitialised
          end
      end
  | Unrealizable => Some NotRealizable
  | _ => None
  end.
