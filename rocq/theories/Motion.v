(** * Model: extensionNondeterministicMotion.hpp (--nonDeterministicMotion)

    The system controls a robot whose motion state after an action is only known to be one of
    several ones.  Not modelled: the format of BDD files (reading one is a parameter), the opening of
    files, dot files in /tmp, messages on stderr, strategyDumpingData (only used by the interactive
    strategy simulator). *)

From Coq Require Import String Ascii Arith List Bool NArith.
From Verif Require Import BDD Loop VarTypes Synth Parser.
Import ListNotations.
Local Open Scope string_scope.

(** ** Reading formulas, lines 47-145 *)

(** readBDDs: the named BDDs, latest first. *)
Definition bddMap : Type := list (string * BF).
Fixpoint findBDD (m : bddMap) (w : string) : option BF :=
  match m with
  | [] => None
  | (n, b) :: m => if String.eqb n w then Some b else findBDD m w
  end.

Section RECURSE.
  Variable names : list string.
  Variable types : list VariableType.
  Variable allowed : list VariableType.
  Variable bdds : bddMap.
  (** The order in which the operands are evaluated, as in Parser.v. *)
  Variable ord : nat -> bool.

  (** parseBooleanFormulaRecurseEx, lines 54-123. *)
  Fixpoint parseRecEx (fuel : nat) (mem : memory) (s : string) : pres (option BF * string) :=
    match fuel with
    | O => PFuel
    | S fuel =>
        let '(op, s1) := readToken s in
        let binary (f : BF -> BF -> BF) :=
          pbind (parseRecEx fuel mem s1) (fun '(v1, s2) =>
          pbind (parseRecEx fuel mem s2) (fun '(v2, s3) =>
          pbind (if ord (String.length s1) then op2 f v1 v2 else op2 f v2 v1)
                (fun v => POk (v, s3)))) in
        if String.eqb op "" then PErr PrematureEnd
        else if String.eqb op "|" then binary bor
        else if String.eqb op "^" then binary bxor
        else if String.eqb op "&" then binary band
        else if String.eqb op "!" then
          pbind (parseRecEx fuel mem s1) (fun '(v, s2) => pbind (op1 bnot v) (fun v => POk (v, s2)))
        else if String.eqb op "1" then POk (Some btrue, s1)
        else if String.eqb op "0" then POk (Some bfalse, s1)
        else if String.eqb op "$" then
          match readUnsigned s1 with
          | None => PErr ExpectedBufferSize
          | Some (n, s2) =>
              (fix elems (k : nat) (left : N) (vals : list (option BF)) (s : string) :=
                 if (left =? 0)%N then
                   (* memoryNew[nofElements-1] *)
                   if (n =? 0)%N then PUB else POk (recall (mkMem n vals) (n - 1), s)
                 else match k with
                      | O => PFuel
                      | S k => pbind (parseRecEx fuel (mkMem n vals) s)
                                 (fun '(v, s') => elems k (N.pred left) (vals ++ [v])%list s')
                      end) (S (String.length s2)) n [] s2
          end
        else if String.eqb op "?" then
          match readUnsigned s1 with
          | None => PErr ExpectedRecallNumber
          | Some (k, s2) =>
              if (msize mem <=? k)%N then PErr RecallNotStored else POk (recall mem k, s2)
          end
        else match findBDD bdds op with
        | Some b => POk (Some b, s1)
        | None =>
            match findVar names 0 op with
            | None => PErr NotFound
            | Some i =>
                if existsb (vt_eqb (nth i types NoneVariableType)) allowed then POk (Some (bvar i), s1)
                else PErr NotAllowed
            end
        end
    end.
  (** parseBooleanFormulaEx, lines 131-145. *)
  Definition parseFormulaEx (line : string) : pres (option BF) :=
    pbind (parseRecEx (S (String.length line)) (mkMem 0 []) line) (fun '(v, rest) =>
      if String.eqb (fst (readToken rest)) "" then POk v else PErr StrayCharacters).
End RECURSE.

(** ** Reading the files, lines 154-354 *)

(** The values of readMode. *)
Inductive modeM : Set := GMode (m : mode) | GState | GControl | GOther | GRegions.
Definition categoryM (line : string) : option modeM :=
  if String.eqb line "[INPUT]" then Some (GMode MInput)
  else if String.eqb line "[MOTION STATE OUTPUT]" then Some GState
  else if String.eqb line "[MOTION CONTROLLER OUTPUT]" then Some GControl
  else if String.eqb line "[OTHER OUTPUT]" then Some GOther
  else if String.eqb line "[ENV_INIT]" then Some (GMode MEnvInit)
  else if String.eqb line "[SYS_INIT]" then Some (GMode MSysInit)
  else if String.eqb line "[ENV_TRANS]" then Some (GMode MEnvTrans)
  else if String.eqb line "[SYS_TRANS]" then Some (GMode MSysTrans)
  else if String.eqb line "[ENV_LIVENESS]" then Some (GMode MEnvLive)
  else if String.eqb line "[SYS_LIVENESS]" then Some (GMode MSysLive)
  else if String.eqb line "[ABSTRACTION_REGION_BDDS]" then Some GRegions
  else None.

(** Errors of this reader only. *)
Inductive merror : Set :=
| MParse (e : perror) | MNoSpace | MNoBDD | MRegionTwice | MUndefined | MOutOfFuel.
(** The outcome: a value or no verdict. *)
Definition mres (A : Type) : Type := (A + merror)%type.
Definition ofPres {A} (x : pres A) : mres A :=
  match x with POk a => inl a | PErr e => inr (MParse e) | PUB => inr MUndefined | PFuel => inr MOutOfFuel end.
Definition mbind {A B} (x : mres A) (f : A -> mres B) : mres B := match x with inl a => f a | inr e => inr e end.

(** currentLine.find(" ") and the two parts, lines 296-301. *)
Fixpoint splitSpace (s : string) : option (string * string) :=
  match s with
  | EmptyString => None
  | String a s' =>
      if (a =? " ")%char then Some (EmptyString, s')
      else match splitSpace s' with Some (u, v) => Some (String a u, v) | None => None end
  end.
(** The variables of exactly the type [t], last one first, lines 304-307 and 334-345. *)
Definition exactly (c : ctx) (t : VariableType) : list nat :=
  rev (filter (fun i => vt_eqb (nth i (varTypes c) NoneVariableType) t) (seq 0 (length (varTypes c)))).

Section INIT.
  Variable ord : nat -> bool.
  (** mgr.readBDDFromFile: the file name and the variables for its bits; [None]: an exception. *)
  Variable readBDD : string -> list nat -> option BF.

  Definition formulaEx (c : ctx) (bdds : bddMap) (allowed : list VariableType) (line : string) : mres BF :=
    mbind (ofPres (parseFormulaEx (varNames c) (varTypes c) allowed bdds ord line))
      (fun v => match v with Some b => inl b | None => inr MUndefined end).

  (** One line, lines 184-329. *)
  Definition processLineM (st : modeM * ctx * bddMap) (line0 : string) : mres (modeM * ctx * bddMap) :=
    let '(m, c, bs) := st in
    let line := trim line0 in
    match line with
    | EmptyString => inl st
    | String a _ =>
        if (a =? "#")%char then inl st
        else if (a =? "[")%char then
          match categoryM line with Some m' => inl (m', c, bs) | None => inr (MParse UnknownCategory) end
        else match m with
        | GMode MInput => inl (m, addVars c PreInput PostInput line, bs)
        | GState => inl (m, addVars c PreMotionState PostMotionState line, bs)
        | GControl => inl (m, addVars c PreMotionControlOutput PostMotionControlOutput line, bs)
        | GOther => inl (m, addVars c PreOtherOutput PostOtherOutput line, bs)
        | GMode MEnvInit => mbind (formulaEx c bs [PreInput; PreMotionState; PreOtherOutput] line) (fun b =>
            inl (m, mkCtx (varNames c) (varTypes c) (livenessAssumptions c) (livenessGuarantees c)
                      (band (initEnv c) b) (initSys c) (safetyEnv c) (safetySys c), bs))
        | GMode MSysInit => mbind (formulaEx c bs [PreInput; PreMotionState; PreOtherOutput] line) (fun b =>
            inl (m, mkCtx (varNames c) (varTypes c) (livenessAssumptions c) (livenessGuarantees c)
                      (initEnv c) (band (initSys c) b) (safetyEnv c) (safetySys c), bs))
        | GMode MEnvTrans => mbind (formulaEx c bs [PreInput; PreMotionState; PreOtherOutput; PostInput; PostMotionState; PostOtherOutput] line) (fun b =>
            inl (m, mkCtx (varNames c) (varTypes c) (livenessAssumptions c) (livenessGuarantees c)
                      (initEnv c) (initSys c) (band (safetyEnv c) b) (safetySys c), bs))
        | GMode MSysTrans => mbind (formulaEx c bs [PreInput; PreMotionState; PostMotionControlOutput; PreOtherOutput; PostInput; PostMotionState; PostOtherOutput] line) (fun b =>
            inl (m, mkCtx (varNames c) (varTypes c) (livenessAssumptions c) (livenessGuarantees c)
                      (initEnv c) (initSys c) (safetyEnv c) (band (safetySys c) b), bs))
        | GMode MEnvLive => mbind (formulaEx c bs [PreInput; PreMotionState; PreOtherOutput; PostInput] line) (fun b =>
            inl (m, mkCtx (varNames c) (varTypes c) (livenessAssumptions c ++ [b])%list (livenessGuarantees c)
                      (initEnv c) (initSys c) (safetyEnv c) (safetySys c), bs))
        | GMode MSysLive => mbind (formulaEx c bs [PreInput; PreMotionState; PostMotionControlOutput; PreOtherOutput; PostInput; PostMotionState; PostOtherOutput] line) (fun b =>
            inl (m, mkCtx (varNames c) (varTypes c) (livenessAssumptions c) (livenessGuarantees c ++ [b])%list
                      (initEnv c) (initSys c) (safetyEnv c) (safetySys c), bs))
        | GRegions =>
            match splitSpace line with
            | None => inr MNoSpace
            | Some (name, file) =>
                match readBDD file (exactly c PreMotionState) with
                | None => inr MNoBDD
                | Some b =>
                    match findBDD bs name with
                    | Some _ => inr MRegionTwice
                    | None => inl (m, c, (name ++ "'", swapPrePost c b) :: (name, b) :: bs)
                    end
                end
            end
        | GMode MNone | GMode MOutput => inr (MParse NoCategory)
        end
    end.
  Fixpoint processLinesM (st : modeM * ctx * bddMap) (lines : list string) : mres (modeM * ctx * bddMap) :=
    match lines with
    | [] => inl st
    | l :: ls => mbind (processLineM st l) (fun st => processLinesM st ls)
    end.

  (** addAutomaticallyGeneratedLivenessAssumption, lines 465-488; the vectors and the cube of lines 34-37. *)
  Definition motionVectorPre (c : ctx) : list nat := varsOf (varTypes c) [PreMotionState].
  Definition motionVectorPost (c : ctx) : list nat := varsOf (varTypes c) [PostMotionState].
  Definition varCubePreMotionState (c : ctx) : list nat := varsOf (varTypes c) [PreMotionState].
  Definition varCubePostMotionState (c : ctx) : list nat := varsOf (varTypes c) [PostMotionState].
  Definition varCubePostControllerOutput (c : ctx) : list nat := varsOf (varTypes c) [PostMotionControlOutput].
  Definition motionDiffers (c : ctx) : BF :=
    fold_left (fun acc '(i, j) => bor acc (bxor (bvar i) (bvar j))) (combine (motionVectorPre c) (motionVectorPost c)) bfalse.
  Definition motionAssumption (c : ctx) (robot : BF) : BF :=
    bor (bnot (bexists (varCubePostMotionState c) (band (motionDiffers c) robot))) (motionDiffers c).
  Definition addAuto (c : ctx) (robot : BF) : ctx :=
    mkCtx (varNames c) (varTypes c) (livenessAssumptions c ++ [motionAssumption c robot])%list
      (match livenessGuarantees c with [] => [btrue] | l => l end)
      (initEnv c) (initSys c) (safetyEnv c) (safetySys c).

  (** The robot, lines 332-345. *)
  Definition robotVars (c : ctx) : list nat :=
    (exactly c PreMotionState ++ exactly c PostMotionControlOutput ++ exactly c PostMotionState)%list.
  (** The specification as given and the robot, lines 154-347. *)
  Definition readM (content robotFile : string) : mres (ctx * BF) :=
    mbind (processLinesM (GMode MNone, emptyCtx, []) (getlines content)) (fun '(_, c, _) =>
      match readBDD robotFile (robotVars c) with
      | None => inr MNoBDD
      | Some robot => inl (c, robot)
      end).
End INIT.

(** ** checkRealizability, lines 356-463 *)

Section CHECK.
  Variable c : ctx.
  Variable robot : BF.

  (** Line 359. *)
  Definition robotAllowedMoves : BF := bexists (varCubePostMotionState c) robot.
  (** Lines 409 and 413: the enforceable predecessor. *)
  Definition coxM (paths : BF) : BF :=
    bforall (varCubePostInput c) (bexists (varCubePostControllerOutput c) (bimp (safetyEnv c)
      (band robotAllowedMoves (bforall (varCubePostMotionState c) (bimp robot paths))))).
  (** Inner greatest fixed point, lines 402-414; lines 406-407 are pathsX. *)
  Definition nu0BodyM (live asm : BF) (st : BF * unit) : step (BF * unit) (BF * unit) :=
    fpUpdate (fst st) (coxM (pathsX c live asm (fst st))) tt.
  Definition nu0LoopM (live asm : BF) : option BF := option_map fst (run (nu0BodyM live asm) (fpFuel c) (btrue, tt)).
  (** Loop over the liveness assumptions, lines 394-422. *)
  Fixpoint asmLoopM (live : BF) (asms : list BF) (good : BF) : option BF :=
    match asms with
    | [] => Some good
    | a :: asms =>
        match nu0LoopM live a with
        | None => None
        | Some nu0 => asmLoopM live asms (bor good nu0)
        end
    end.
  (** Middle least fixed point, lines 386-426. *)
  Definition mu1BodyM (st : BF * BF) : step (BF * BF) (BF * BF) :=
    let live := bor (snd st) (swapPrePost c (fst st)) in
    match asmLoopM live (livenessAssumptions c) (fst st) with
    | None => Abort
    | Some good => fpUpdate (fst st) good live
    end.
  Definition mu1LoopM (live : BF) : option BF := option_map fst (run mu1BodyM (fpFuel c) (bfalse, live)).
  (** Loop over the liveness guarantees, lines 376-430. *)
  Fixpoint goalLoopM (nu2 : BF) (goals : list BF) (next : BF) : option BF :=
    match goals with
    | [] => Some next
    | g :: goals =>
        match mu1LoopM (band g (swapPrePost c nu2)) with
        | None => None
        | Some mu1 => goalLoopM nu2 goals (band next mu1)
        end
    end.
  (** Outer greatest fixed point, lines 362-435. *)
  Definition nu2BodyM (st : BF * unit) : step (BF * unit) (BF * unit) :=
    match goalLoopM (fst st) (livenessGuarantees c) btrue with
    | None => Abort
    | Some next => fpUpdate (fst st) next tt
    end.
  Definition winningM : option BF := option_map fst (run nu2BodyM (fpFuel c) (btrue, tt)).

  (** Lines 442-461; the robotics semantics ignores the initialisation guarantees. *)
  Definition initialCheckM (robotics : bool) (w : BF) : BF :=
    bexists (varCubePreMotionState c) (bforall (varCubePreInput c)
      (bimp (initEnv c) (if robotics then bforall (varCubePreOutput c) w
                         else bexists (varCubePreOutput c) (band w (initSys c))))).
  Definition checkM (robotics : bool) : verdict :=
    match winningM with
    | None => NoTermination
    | Some w => verdictOf (initialCheckM robotics w)
    end.
End CHECK.

(** init and execute, lines 154-354 and 494-501: the verdict for a file and a robot. *)
Definition executeM (robotics : bool) (ord : nat -> bool) (readBDD : string -> list nat -> option BF) (content robotFile : string) : mres verdict :=
  mbind (readM ord readBDD content robotFile) (fun '(c, robot) => inl (checkM (addAuto c robot) robot robotics)).
