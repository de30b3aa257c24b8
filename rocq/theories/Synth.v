(** * Realizability checking

    Model of GR1Context::computeWinningPositions and checkRealizability,
    /repo/src/synthesisAlgorithm.cpp, and of class BFFixedPoint,
    /repo/src/gr1context.hpp:95-110. *)

From Coq Require Import Arith List Bool.
From Verif Require Import BDD Loop VarTypes.
Import ListNotations.

(** BFFixedPoint::update (gr1context.hpp:101-107) as a loop step: when the value
    does not change the loop is left with the current value. *)
Definition fpUpdate {D : Type} (cur new : BF) (d : D) : step (BF * D) (BF * D) :=
  if bf_eqb cur new then Done (cur, d) else Cont (new, d).

(** The enforceable predecessor, synthesisAlgorithm.cpp:65. *)
Definition cox (c : ctx) (paths : BF) : BF :=
  bforall (varCubePostInput c) (bexists (varCubePostOutput c) (bimp (safetyEnv c) paths)).

(** foundPaths, synthesisAlgorithm.cpp:61-62. *)
Definition pathsX (c : ctx) (live asm x : BF) : BF :=
  band (bor live (band (swapPrePost c x) (bnot asm))) (safetySys c).

(** Inner greatest fixed point, synthesisAlgorithm.cpp:54-66; the loop state is
    (nu0, foundPaths). *)
Definition nu0Body (c : ctx) (live asm : BF) (st : BF * BF) : step (BF * BF) (BF * BF) :=
  let paths := pathsX c live asm (fst st) in
  fpUpdate (fst st) (cox c paths) paths.
Definition nu0Loop (c : ctx) (live asm : BF) : option (BF * BF) :=
  run (nu0Body c live asm) (fpFuel c) (btrue, btrue).

(** Loop over the liveness assumptions, synthesisAlgorithm.cpp:50-74; accumulates
    goodForAnyLivenessAssumption and strategyDumpingData. *)
Fixpoint asmLoop (c : ctx) (j : nat) (live : BF) (asms : list BF)
    (good : BF) (data : list (nat * BF)) : option (BF * list (nat * BF)) :=
  match asms with
  | [] => Some (good, data)
  | a :: asms =>
      match nu0Loop c live a with
      | None => None
      | Some (nu0, paths) => asmLoop c j live asms (bor good nu0) (data ++ [(j, paths)])
      end
  end.

(** Middle least fixed point, synthesisAlgorithm.cpp:41-78; the loop state is
    (mu1, (livetransitions, strategyDumpingData)). *)
Definition mu1Body (c : ctx) (j : nat) (st : BF * (BF * list (nat * BF))) :
    step (BF * (BF * list (nat * BF))) (BF * (BF * list (nat * BF))) :=
  let '(mu1, (live, data)) := st in
  let live := bor live (swapPrePost c mu1) in
  match asmLoop c j live (livenessAssumptions c) mu1 data with
  | None => Abort
  | Some (good, data) => fpUpdate mu1 good (live, data)
  end.
Definition mu1Loop (c : ctx) (j : nat) (live : BF) (data : list (nat * BF)) :
    option (BF * (BF * list (nat * BF))) :=
  run (mu1Body c j) (fpFuel c) (bfalse, (live, data)).

(** Loop over the liveness guarantees, synthesisAlgorithm.cpp:33-82. *)
Fixpoint goalLoop (c : ctx) (nu2 : BF) (j : nat) (goals : list BF)
    (next : BF) (data : list (nat * BF)) : option (BF * list (nat * BF)) :=
  match goals with
  | [] => Some (next, data)
  | g :: goals =>
      match mu1Loop c j (band g (swapPrePost c nu2)) data with
      | None => None
      | Some (mu1, (_, data)) => goalLoop c nu2 (S j) goals (band next mu1) data
      end
  end.

(** Outer greatest fixed point, synthesisAlgorithm.cpp:18-87; the loop state is
    (nu2, strategyDumpingData). *)
Definition nu2Body (c : ctx) (st : BF * list (nat * BF)) :
    step (BF * list (nat * BF)) (BF * list (nat * BF)) :=
  match goalLoop c (fst st) 0 (livenessGuarantees c) btrue [] with
  | None => Abort
  | Some (next, data) => fpUpdate (fst st) next data
  end.

(** computeWinningPositions: (winningPositions, strategyDumpingData), or [None]
    if a loop needs more iterations than the fuel admits. *)
Definition computeWinningPositions (c : ctx) : option (BF * list (nat * BF)) :=
  run (nu2Body c) (fpFuel c) (btrue, []).

(** Outcome of checkRealizability: a verdict, the internal error
    (synthesisAlgorithm.cpp:103-106), or divergence of a loop. *)
Inductive verdict : Type :=
| Realizable
| Unrealizable
| InternalError
| NoTermination.

Definition verdictOf (result : BF) : verdict :=
  if negb (isConstant result) then InternalError
  else if isTrue result then Realizable else Unrealizable.

(** synthesisAlgorithm.cpp:100. *)
Definition initialCheck (c : ctx) (w : BF) : BF :=
  bforall (varCubePreInput c)
    (bimp (initEnv c) (bexists (varCubePreOutput c) (band w (initSys c)))).

(** GR1Context::checkRealizability, synthesisAlgorithm.cpp:94-110. *)
Definition checkRealizability (c : ctx) : verdict :=
  match computeWinningPositions c with
  | None => NoTermination
  | Some (w, _) => verdictOf (initialCheck c w)
  end.

(** XRoboticsSemantics::checkRealizability,
    /repo/src/extensionRoboticsSemantics.hpp:26-45. *)
Definition initialCheckRobotics (c : ctx) (w : BF) : BF :=
  bforall (varCubePreInput c) (bforall (varCubePreOutput c)
    (bimp (band (initEnv c) (initSys c)) w)).
Definition checkRealizabilityRobotics (c : ctx) : verdict :=
  match computeWinningPositions c with
  | None => NoTermination
  | Some (w, _) => verdictOf (initialCheckRobotics c w)
  end.
