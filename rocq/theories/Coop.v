(** * Cooperative strategies (option --cooperativeGR1Strategy)

    Model of /repo/src/extensionCooperativeGR1Strategy.hpp, and of
    XExtractExplicitStrategy, XRoboticsSemantics on top of it. *)

From Coq Require Import Arith List Bool.
From Verif Require Import BDD Loop VarTypes Synth AutSpec Explicit.
Import ListNotations.

(** nonDeadEndSafetySys, line 43. *)
Definition nonDead (c : ctx) : BF :=
  band (safetySys c) (swapPrePost c (bexists (varCubePost c) (safetyEnv c))).

(** foundPaths, lines 120-121; [x] and [m] are the values of nu0 and muCoop. *)
Definition pathsC (c : ctx) (live asm x m : BF) : BF :=
  band (bor live (band (swapPrePost c (band x m)) (bnot asm))) (band (nonDead c) (safetyEnv c)).

(** The cooperation fixed point, lines 112-133; the loop state is
    (muCoop, (foundPaths, livenessAssumptionProgressPaths)). *)
Definition muCoopBody (c : ctx) (live asm x : BF) (st : BF * (BF * list BF)) : step (BF * (BF * list BF)) (BF * (BF * list BF)) :=
  let '(m, (_, progress)) := st in
  let found := pathsC c live asm x m in
  fpUpdate m (bexists (varCubePost c) (band (safetyEnv c) found)) (found, progress ++ [found]).
Definition muCoopLoop (c : ctx) (live asm x found : BF) : option (BF * (BF * list BF)) :=
  run (muCoopBody c live asm x) (fpFuel c) (bfalse, (found, [live])).

(** Inner greatest fixed point, lines 97-147; the loop state is
    (nu0, (foundPaths, livenessAssumptionProgressPaths)). *)
Definition nu0BodyC (c : ctx) (live asm : BF) (st : BF * (BF * list BF)) : step (BF * (BF * list BF)) (BF * (BF * list BF)) :=
  let '(x, (found, _)) := st in
  match muCoopLoop c live asm x found with
  | None => Abort
  | Some (_, (found, progress)) => fpUpdate x (cox c found) (found, progress)
  end.
Definition nu0LoopC (c : ctx) (live asm : BF) : option (BF * (BF * list BF)) :=
  run (nu0BodyC c live asm) (fpFuel c) (btrue, (btrue, [])).

(** Loop over the liveness assumptions, lines 92-157. *)
Fixpoint asmLoopC (c : ctx) (j : nat) (live : BF) (asms : list BF)
    (good : BF) (data : list (nat * BF)) : option (BF * list (nat * BF)) :=
  match asms with
  | [] => Some (good, data)
  | a :: asms =>
      match nu0LoopC c live a with
      | None => None
      | Some (nu0, (found, progress)) =>
          asmLoopC c j live asms (bor good nu0) (data ++ map (fun p => (j, band found p)) progress)
      end
  end.

(** Middle least fixed point, lines 79-165. *)
Definition mu1BodyC (c : ctx) (j : nat) (st : BF * (BF * list (nat * BF))) :
    step (BF * (BF * list (nat * BF))) (BF * (BF * list (nat * BF))) :=
  let '(mu1, (live, data)) := st in
  let live := bor live (swapPrePost c mu1) in
  match asmLoopC c j live (livenessAssumptions c) mu1 data with
  | None => Abort
  | Some (good, data) => fpUpdate mu1 good (live, data)
  end.
Definition mu1LoopC (c : ctx) (j : nat) (live : BF) (data : list (nat * BF)) :
    option (BF * (BF * list (nat * BF))) :=
  run (mu1BodyC c j) (fpFuel c) (bfalse, (live, data)).

(** Loop over the liveness guarantees of the specification, lines 69-169. *)
Fixpoint goalLoopC (c : ctx) (nu2 : BF) (j : nat) (goals : list BF)
    (next : BF) (data : list (nat * BF)) : option (BF * list (nat * BF)) :=
  match goals with
  | [] => Some (next, data)
  | g :: goals =>
      match mu1LoopC c j (band g (swapPrePost c nu2)) data with
      | None => None
      | Some (mu1, (_, data)) => goalLoopC c nu2 (S j) goals (band next mu1) data
      end
  end.

(** Paths along which a liveness assumption can be satisfied, lines 176-209; the loop state
    is (mu1, (goodTransitions, strategyDumpingData)). *)
Definition goodBody (c : ctx) (j : nat) (next : BF) (st : BF * (BF * list (nat * BF))) :
    step (BF * (BF * list (nat * BF))) (BF * (BF * list (nat * BF))) :=
  let '(mu1, (good, data)) := st in
  let states := bexists (varCubePost c) good in
  fpUpdate mu1 (bor states mu1)
    (bor good (band (band (band (swapPrePost c states) (safetyEnv c)) (nonDead c)) next), data ++ [(j, good)]).
Definition goodStart (c : ctx) (asm next : BF) : BF :=
  band (band (band (band asm (nonDead c)) next) (safetyEnv c)) (swapPrePost c next).
Definition goodLoop (c : ctx) (j : nat) (asm next : BF) (data : list (nat * BF)) :
    option (BF * (BF * list (nat * BF))) :=
  run (goodBody c j next) (fpFuel c) (bfalse, (goodStart c asm next, data)).

(** Loop over the liveness assumptions, lines 171-215; accumulates
    nextContraintsForGoals, strategyDumpingData and
    transitionsTowardsLivenessAssumption. *)
Fixpoint asmGoalLoop (c : ctx) (nu2 : BF) (j : nat) (asms : list BF)
    (next : BF) (data : list (nat * BF)) (towards : list BF) : option (BF * (list (nat * BF) * list BF)) :=
  match asms with
  | [] => Some (next, (data, towards))
  | a :: asms =>
      match goodLoop c j a next data with
      | None => None
      | Some (mu1, (good, data)) =>
          asmGoalLoop c nu2 (S j) asms (band next mu1)
            (data ++ [(j, band (nonDead c) (swapPrePost c nu2))]) (towards ++ [good])
      end
  end.

(** Outer greatest fixed point, lines 54-224; the loop state is
    (nu2, (strategyDumpingData, transitionsTowardsLivenessAssumption)). *)
Definition nu2BodyC (c : ctx) (st : BF * (list (nat * BF) * list BF)) :
    step (BF * (list (nat * BF) * list BF)) (BF * (list (nat * BF) * list BF)) :=
  match goalLoopC c (fst st) 0 (livenessGuarantees c) btrue [] with
  | None => Abort
  | Some (next, data) =>
      match asmGoalLoop c (fst st) (length (livenessGuarantees c)) (livenessAssumptions c) next data [] with
      | None => Abort
      | Some (next, d) => fpUpdate (fst st) next d
      end
  end.

(** computeWinningPositions: winningPositions, strategyDumpingData, and the modified
    liveness guarantees (lines 47-52 and 226-233). *)
Definition computeCoop (c : ctx) : option (BF * list (nat * BF) * list BF) :=
  match run (nu2BodyC c) (fpFuel c) (btrue, ([], [])) with
  | None => None
  | Some (w, (data, towards)) =>
      Some (w, data, livenessGuarantees c ++ map (fun e => bor (fst e) (bnot (snd e))) (combine (livenessAssumptions c) towards))
  end.

(** The specification with other liveness guarantees. *)
Definition withGuarantees (c : ctx) (gs : list BF) : ctx :=
  mkCtx (varNames c) (varTypes c) (livenessAssumptions c) gs (initEnv c) (initSys c) (safetyEnv c) (safetySys c).

(** checkRealizability with these winning positions (synthesisAlgorithm.cpp:94-110 or
    extensionRoboticsSemantics.hpp:26-45). *)
Definition verdictCoop (robotics : bool) (c : ctx) : verdict :=
  match computeCoop c with
  | None => NoTermination
  | Some (w, _, _) => verdictOf (if robotics then initialCheckRobotics c w else initialCheck c w)
  end.

(** XExtractExplicitStrategy on top of it, as [computeExplicit]. *)
Definition computeExplicitCoop (robotics recovery : bool) (c : ctx) : option (verdict * list (node * bool)) :=
  match computeCoop c with
  | None => None
  | Some (w, data, gs) =>
      let v := verdictOf (if robotics then initialCheckRobotics c w else initialCheck c w) in
      match v with
      | Realizable =>
          match extract recovery (withGuarantees c gs) w data with
          | None => None
          | Some out => Some (v, out)
          end
      | _ => Some (v, [])
      end
  end.
