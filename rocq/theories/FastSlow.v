(** * Model: extensionIROSfastslow.hpp (--IROSfastslow)

    Actions of the system are fast or slow.  If both kinds change in one step, then the robot passes
    through a position in which only the fast ones have changed. *)

From Coq Require Import String Ascii Arith List Bool.
From Verif Require Import BDD Loop VarTypes Synth Solvers Explicit Parser.
Import ListNotations.
Local Open Scope string_scope.

(** ** Reading the file, lines 71-201 *)

(** The values of readMode; [FMode] for those that GR1Context::init has as well. *)
Inductive modeFS : Set := FMode (m : mode) | FFast | FSlow.
Definition categoryFS (line : string) : option modeFS :=
  if String.eqb line "[INPUT]" then Some (FMode MInput)
  else if String.eqb line "[OUTPUT_F]" then Some FFast
  else if String.eqb line "[OUTPUT_S]" then Some FSlow
  else if String.eqb line "[ENV_INIT]" then Some (FMode MEnvInit)
  else if String.eqb line "[SYS_INIT]" then Some (FMode MSysInit)
  else if String.eqb line "[ENV_TRANS]" then Some (FMode MEnvTrans)
  else if String.eqb line "[SYS_TRANS]" then Some (FMode MSysTrans)
  else if String.eqb line "[ENV_LIVENESS]" then Some (FMode MEnvLive)
  else if String.eqb line "[SYS_LIVENESS]" then Some (FMode MSysLive)
  else None.
(** One line, lines 92-185. *)
Definition processLineFS (ord : nat -> bool) (st : modeFS * ctx) (line0 : string) : pres (modeFS * ctx) :=
  let '(m, c) := st in
  let line := trim line0 in
  match line with
  | EmptyString => POk st
  | String a _ =>
      if (a =? "#")%char then POk st
      else if (a =? "[")%char then
        match categoryFS line with Some m' => POk (m', c) | None => PErr UnknownCategory end
      else match m with
      | FMode MInput => POk (m, addVars c PreInput PostInput line)
      | FFast => POk (m, addVars c PreOutputFast PostOutputFast line)
      | FSlow => POk (m, addVars c PreOutputSlow PostOutputSlow line)
      | FMode MEnvInit => pbind (formula ord c [PreInput] line) (fun b =>
          POk (m, mkCtx (varNames c) (varTypes c) (livenessAssumptions c) (livenessGuarantees c)
                    (band (initEnv c) b) (initSys c) (safetyEnv c) (safetySys c)))
      | FMode MSysInit => pbind (formula ord c [PreInput; PreOutputFast; PreOutputSlow] line) (fun b =>
          POk (m, mkCtx (varNames c) (varTypes c) (livenessAssumptions c) (livenessGuarantees c)
                    (initEnv c) (band (initSys c) b) (safetyEnv c) (safetySys c)))
      | FMode MEnvTrans => pbind (formula ord c [PreInput; PreOutputFast; PreOutputSlow; PostInput] line) (fun b =>
          POk (m, mkCtx (varNames c) (varTypes c) (livenessAssumptions c) (livenessGuarantees c)
                    (initEnv c) (initSys c) (band (safetyEnv c) b) (safetySys c)))
      | FMode MSysTrans => pbind (formula ord c [PreInput; PreOutputFast; PreOutputSlow; PostInput; PostOutputFast; PostOutputSlow] line) (fun b =>
          POk (m, mkCtx (varNames c) (varTypes c) (livenessAssumptions c) (livenessGuarantees c)
                    (initEnv c) (initSys c) (safetyEnv c) (band (safetySys c) b)))
      | FMode MEnvLive => pbind (formula ord c [PreInput; PreOutputFast; PreOutputSlow; PostOutputFast; PostOutputSlow; PostInput] line) (fun b =>
          POk (m, mkCtx (varNames c) (varTypes c) (livenessAssumptions c ++ [b])%list (livenessGuarantees c)
                    (initEnv c) (initSys c) (safetyEnv c) (safetySys c)))
      | FMode MSysLive => pbind (formula ord c [PreInput; PreOutputFast; PreOutputSlow; PostInput; PostOutputFast; PostOutputSlow] line) (fun b =>
          POk (m, mkCtx (varNames c) (varTypes c) (livenessAssumptions c) (livenessGuarantees c ++ [b])%list
                    (initEnv c) (initSys c) (safetyEnv c) (safetySys c)))
      | FMode MNone | FMode MOutput => PErr NoCategory
      end
  end.
Fixpoint processLinesFS (ord : nat -> bool) (st : modeFS * ctx) (lines : list string) : pres (modeFS * ctx) :=
  match lines with
  | [] => POk st
  | l :: ls => pbind (processLineFS ord st l) (fun st => processLinesFS ord st ls)
  end.
(** init, lines 71-201. *)
Definition initFS (ord : nat -> bool) (content : string) : pres ctx :=
  pbind (processLinesFS ord (FMode MNone, emptyCtx) (getlines content)) (fun '(_, c) => finish c).

(** ** computeWinningPositions, lines 220-341 *)

(** Lines 54-63. *)
Definition varCubePostOutputF (c : ctx) : list nat := varsOf (varTypes c) [PostOutputFast].
Definition varCubePostOutputS (c : ctx) : list nat := varsOf (varTypes c) [PostOutputSlow].
Definition varCubePreOutputF (c : ctx) : list nat := varsOf (varTypes c) [PreOutputFast].
Definition varCubePreOutputS (c : ctx) : list nat := varsOf (varTypes c) [PreOutputSlow].
Definition varVectorPostOutputS (c : ctx) : list nat := varsOf (varTypes c) [PostOutputSlow].
Definition varVectorPreOutputS (c : ctx) : list nat := varsOf (varTypes c) [PreOutputSlow].

(** Lines 225-228. *)
Definition safeStates (c : ctx) : BF :=
  bexists (varCubePostOutputF c) (bexists (varCubePostOutputS c) (bexists (varCubePostInput c) (safetySys c))).
Definition safeNext (c : ctx) : BF :=
  bswap (varVectorPost c) (varVectorPre c)
    (bexists (varCubePreOutputF c) (bexists (varCubePreOutputS c) (bexists (varCubePreInput c) (safetySys c)))).
Definition newSafetySys (c : ctx) : BF :=
  band (safetySys c) (bswap (varVectorPostOutputS c) (varVectorPreOutputS c) (swapPrePost c (band (safeStates c) (safeNext c)))).

(** The enforceable predecessor, line 315, and foundPaths, lines 284-285. *)
Definition coxFS (c : ctx) (paths : BF) : BF :=
  bforall (varCubePostInput c) (bexists (varCubePostOutputS c) (bexists (varCubePostOutputF c) (bimp (safetyEnv c) paths))).
Definition pathsFS (c : ctx) (live asm x : BF) : BF :=
  band (bor live (band (swapPrePost c x) (bnot asm))) (newSafetySys c).
(** Inner greatest fixed point, lines 277-316. *)
Definition nu0BodyFS (c : ctx) (live asm : BF) (st : BF * BF) : step (BF * BF) (BF * BF) :=
  let paths := pathsFS c live asm (fst st) in
  fpUpdate (fst st) (coxFS c paths) paths.
Definition nu0LoopFS (c : ctx) (live asm : BF) : option (BF * BF) := run (nu0BodyFS c live asm) (fpFuel c) (btrue, btrue).
(** Loop over the liveness assumptions, lines 273-324. *)
Fixpoint asmLoopFS (c : ctx) (j : nat) (live : BF) (asms : list BF) (good : BF) (data : list (nat * BF)) :
    option (BF * list (nat * BF)) :=
  match asms with
  | [] => Some (good, data)
  | a :: asms =>
      match nu0LoopFS c live a with
      | None => None
      | Some (nu0, paths) => asmLoopFS c j live asms (bor good nu0) (data ++ [(j, paths)])%list
      end
  end.
(** Middle least fixed point, lines 264-328. *)
Definition mu1BodyFS (c : ctx) (j : nat) (st : BF * (BF * list (nat * BF))) :
    step (BF * (BF * list (nat * BF))) (BF * (BF * list (nat * BF))) :=
  let '(mu1, (live, data)) := st in
  let live := bor live (swapPrePost c mu1) in
  match asmLoopFS c j live (livenessAssumptions c) mu1 data with
  | None => Abort
  | Some (good, data) => fpUpdate mu1 good (live, data)
  end.
(** Loop over the liveness guarantees, lines 256-332. *)
Fixpoint goalLoopFS (c : ctx) (nu2 : BF) (j : nat) (goals : list BF) (next : BF) (data : list (nat * BF)) :
    option (BF * list (nat * BF)) :=
  match goals with
  | [] => Some (next, data)
  | g :: goals =>
      match run (mu1BodyFS c j) (fpFuel c) (bfalse, (band g (swapPrePost c nu2), data)) with
      | None => None
      | Some (mu1, (_, data)) => goalLoopFS c nu2 (S j) goals (band next mu1) data
      end
  end.
(** Outer greatest fixed point, lines 244-337. *)
Definition nu2BodyFS (c : ctx) (st : BF * list (nat * BF)) : step (BF * list (nat * BF)) (BF * list (nat * BF)) :=
  match goalLoopFS c (fst st) 0 (livenessGuarantees c) btrue [] with
  | None => Abort
  | Some (next, data) => fpUpdate (fst st) next data
  end.
Definition computeFS (c : ctx) : option (BF * list (nat * BF)) := run (nu2BodyFS c) (fpFuel c) (btrue, []).

(** ** checkRealizability, lines 344-361 *)
Definition initialCheckFS (c : ctx) (w : BF) : BF :=
  bforall (varCubePreInput c)
    (bimp (initEnv c) (bexists (varCubePreOutputS c) (bexists (varCubePreOutputF c) (band w (initSys c))))).
(** [robotics]: with --sysInitRoboticsSemantics, XRoboticsSemantics::checkRealizability
    (extensionRoboticsSemantics.hpp:26-45) is used in place of it. *)
Definition checkFS (robotics : bool) (c : ctx) : verdict :=
  match computeFS c with
  | None => NoTermination
  | Some (w, _) => verdictOf (if robotics then initialCheckRobotics c w else initialCheckFS c w)
  end.

(** With --explicitStrategy: XExtractExplicitStrategy<XIROSFS<...>> (as [computeExplicit]); it uses
    strategyDumpingData of XIROSFS (line 53). *)
Definition computeExplicitFS (robotics recovery : bool) (c : ctx) : option (verdict * list (AutSpec.node * bool)) :=
  match computeFS c with
  | None => None
  | Some (w, data) =>
      let v := verdictOf (if robotics then initialCheckRobotics c w else initialCheckFS c w) in
      match v with
      | Realizable =>
          match extract recovery c w data with
          | None => None
          | Some out => Some (v, out)
          end
      | _ => Some (v, [])
      end
  end.
