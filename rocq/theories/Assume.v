(** * Analysis of the assumptions (option --analyzeAssumptions)

    Model of XAnalyzeAssumptions, /repo/src/extensionAnalyzeAssumptions.hpp.  Not
    modelled: the files /tmp/generalStrategy.dot, /tmp/testing.dot and /tmp/tps.dot
    (lines 282, 302 and 303), and the assertions, which are switched off by -DNDEBUG. *)

From Coq Require Import String Ascii Arith List Bool.
From Verif Require Import BDD Loop VarTypes Synth Explicit Parser.
Import ListNotations.
Local Open Scope list_scope.

(** ** Reading the file *)

(** safetyEnvParts, safetyEnvPartNames and livenessEnvPartNames, lines 36-38. *)
Record parts : Type := mkParts { p_safety : list BF; p_safetyNames : list string; p_liveNames : list string }.

(** Line [currentLine] of the file, lines 71-160.  Apart from the property names the statements are
    those of GR1Context::init ([processLine]).  The additional state is
    (currentPropertyName, parts). *)
Definition named (name default : string) : string := if String.eqb name "" then default else name.
Definition processLineA (ord : nat -> bool) (st : (mode * ctx) * (string * parts)) (line0 : string) :
    pres ((mode * ctx) * (string * parts)) :=
  let '((m, c), (name, p)) := st in
  let line := trim line0 in
  if String.eqb (substring 0 2 line) "##" then                           (* lines 72-74 *)
    POk ((m, c), (trim (substring 2 (String.length line - 2) line), p))
  else
  match line with
  | EmptyString => POk st
  | String a _ =>
      if (a =? "#")%char then POk st                                     (* line 75 *)
      else if (a =? "[")%char then                                       (* lines 76-96 *)
        pbind (processLine ord (m, c) line0) (fun st' => POk (st', (name, p)))
      else
        pbind (processLine ord (m, c) line0) (fun st' =>
        match m with
        | MEnvTrans =>                                                   (* lines 113-127 *)
            pbind (formula ord c [PreInput; PreOutput; PostInput] line) (fun b =>
            POk (st', (""%string, mkParts (p_safety p ++ [b])
              (p_safetyNames p ++ [named name ("Safety Assumption " ++ showNat (S (List.length (p_safety p))))%string])
              (p_liveNames p))))
        | MEnvLive =>                                                    (* lines 135-148 *)
            POk (st', (""%string, mkParts (p_safety p) (p_safetyNames p)
              (p_liveNames p ++ [named name ("Liveness Assumption " ++ showNat (S (List.length (livenessAssumptions c))))%string])))
        | _ => POk (st', (""%string, p))                                  (* line 160 *)
        end)
  end.
Fixpoint processLinesA (ord : nat -> bool) (st : (mode * ctx) * (string * parts)) (lines : list string) :
    pres ((mode * ctx) * (string * parts)) :=
  match lines with
  | [] => POk st
  | l :: ls => pbind (processLineA ord st l) (fun st => processLinesA ord st ls)
  end.
(** init, lines 47-176. *)
Definition automaticName : string := "Automatically added TRUE liveness assumption".
Definition initParts (ord : nat -> bool) (content : string) : pres (ctx * parts) :=
  pbind (processLinesA ord ((MNone, emptyCtx), (""%string, mkParts [] [] [])) (getlines content)) (fun '((_, c), (_, p)) =>
  pbind (finish c) (fun c' =>
  POk (c', mkParts (p_safety p) (p_safetyNames p)
             (match livenessAssumptions c with [] => p_liveNames p ++ [automaticName] | _ => p_liveNames p end)))).

(** ** Reactive distances *)

(** Loop over the liveness assumptions, lines 223-245; accumulates
    goodForAnyLivenessAssumption and allFoundPaths. *)
Fixpoint asmLoopD (c : ctx) (live : BF) (asms : list BF) (good all : BF) : option (BF * BF) :=
  match asms with
  | [] => Some (good, all)
  | a :: asms =>
      match nu0Loop c live a with
      | None => None
      | Some (nu0, paths) => asmLoopD c live asms (bor good nu0) (bor all paths)
      end
  end.
(** Middle least fixed point, lines 211-249; the loop state is
    (mu1, (livetransitions, (distanceStorage[j], overapproximativeWinningStrategy.back()))). *)
Notation distState := (BF * (BF * (list BF * list BF)))%type.
Definition mu1BodyD (c : ctx) (st : distState) : step distState distState :=
  let '(mu1, (live, (dist, strat))) := st in
  let live := bor live (swapPrePost c mu1) in
  match asmLoopD c live (livenessAssumptions c) mu1 bfalse with
  | None => Abort
  | Some (good, all) => fpUpdate mu1 good (live, (dist ++ [good], strat ++ [all]))
  end.
(** Loop over the liveness guarantees, lines 205-251; accumulates nextContraintsForGoals,
    distanceStorage and overapproximativeWinningStrategy. *)
Fixpoint goalLoopD (c : ctx) (nu2 : BF) (goals : list BF) (next : BF) (dists strats : list (list BF)) :
    option (BF * (list (list BF) * list (list BF))) :=
  match goals with
  | [] => Some (next, (dists, strats))
  | g :: goals =>
      match run (mu1BodyD c) (fpFuel c) (bfalse, (band g (swapPrePost c nu2), ([], []))) with
      | None => None
      | Some (mu1, (_, (dist, strat))) => goalLoopD c nu2 goals (band next mu1) (dists ++ [dist]) (strats ++ [strat])
      end
  end.
(** computeReactiveDistancesAndWinningPositions, lines 196-255; the loop state is
    (nu2, (distanceStorage, overapproximativeWinningStrategy)). *)
Definition nu2BodyD (c : ctx) (st : BF * (list (list BF) * list (list BF))) :
    step (BF * (list (list BF) * list (list BF))) (BF * (list (list BF) * list (list BF))) :=
  match goalLoopD c (fst st) (livenessGuarantees c) btrue [] [] with
  | None => Abort
  | Some (next, d) => fpUpdate (fst st) next d
  end.
Definition computeDistances (c : ctx) : option (BF * (list (list BF) * list (list BF))) :=
  run (nu2BodyD c) (fpFuel c) (btrue, ([], [])).

(** ** The most general strategy *)

(** Lines 274-280; the state is (casesCovered, strategy). *)
Definition generalStep (c : ctx) (st : BF * BF) (it : BF) : BF * BF :=
  let '(covered, strategy) := st in
  let newCases := band (bexists (varCubePostOutput c) it) (bnot covered) in
  (bor covered newCases, bor strategy (band newCases it)).
Definition generalStrategy (c : ctx) (its : list BF) : BF := snd (fold_left (generalStep c) its (bfalse, bfalse)).
Definition postImage (c : ctx) (f : BF) : BF := swapPrePost c (bexists (varCubePre c) f).
(** Lines 291-296; the loop state is (muInner, transitionPoints). *)
Definition innerBody (c : ctx) (goal strategy : BF) (st : BF * BF) : step (BF * BF) (BF * BF) :=
  let '(mu, points) := st in
  let next := band mu strategy in
  fpUpdate mu (bor mu (postImage c next)) (bor points (postImage c (band next goal))).
(** Lines 290-298; the state is (all, transitionPoints). *)
Fixpoint innerLoops (c : ctx) (gs : list (BF * BF)) (all points : BF) : option (BF * BF) :=
  match gs with
  | [] => Some (all, points)
  | (goal, strategy) :: gs =>
      match run (innerBody c goal strategy) (fpFuel c) (points, points) with
      | None => None
      | Some (mu, points) => innerLoops c gs (bor all mu) points
      end
  end.
(** Lines 286-301; the loop state is (mu, transitionPoints). *)
Definition outerBody (c : ctx) (gs : list (BF * BF)) (st : BF * BF) : step (BF * BF) (BF * BF) :=
  let '(mu, points) := st in
  match innerLoops c gs mu points with
  | None => Abort
  | Some (all, points) => fpUpdate mu all points
  end.
Definition generalReach (c : ctx) (strats : list (list BF)) : option BF :=
  let init := band (initEnv c) (initSys c) in
  match run (outerBody c (combine (livenessGuarantees c) (map (generalStrategy c) strats))) (fpFuel c) (init, init) with
  | None => None
  | Some (mu, _) => Some mu
  end.

(** ** The reports *)

(** The texts of lines 321-369 and 391-436.  For the goals that become easier to reach:
    the number, and whether the remark "(but not in most general stategy)" is
    printed. *)
Inductive report : Type :=
| HelpsRobotics
| MoreWinning
| Redundant
| Easier (goals : list (nat * bool))
| Superfluous
| Crucial.

(** Lines 335-348 and 402-415: (neededHere, neededInMostGeneralStrategy).  The last distance is used for
    missing ones. *)
Fixpoint needed (ref new : list BF) (reach : BF) (k : nat) : bool * bool :=
  match new with
  | [] => (false, false)
  | d :: new =>
      let '(here, general) := needed ref new reach (S k) in
      let r := nth (Nat.min (List.length ref - 1) k) ref bfalse in
      if bf_eqb r d then (here, general)
      else (true, general || negb (isFalse (band (band r (bnot d)) reach)))
  end.
(** Lines 334-359 and 401-426. *)
Definition easierGoals (c : ctx) (ref new : list (list BF)) (reach : BF) : list (nat * bool) :=
  flat_map (fun j => let '(here, general) := needed (nth j ref []) (nth j new []) reach 0 in
                     if here then [(j, negb general)] else []) (seq 0 (List.length (livenessGuarantees c))).

(** Lines 319-369 and 389-436; operator < is [blt] (/repo/src/BFAbstractionLibrary/BFCudd.h:125-128).  [same] is the comparison of line 329, which is only
    made for safety assumptions. *)
Definition reportOf (c : ctx) (same : bool) (refW : BF) (ref : list (list BF)) (reach : BF)
    (w : BF) (new : list (list BF)) : report :=
  if isTrue (initialCheck c w) then
    if blt w refW then
      if blt (band w (initEnv c)) (band refW (initEnv c)) then HelpsRobotics else MoreWinning
    else if same then Redundant
    else match easierGoals c ref new reach with
         | [] => Superfluous
         | l => Easier l
         end
  else Crucial.

(** The specification with other assumptions. *)
Definition withAssumptions (c : ctx) (safety : BF) (live : list BF) : ctx :=
  mkCtx (varNames c) (varTypes c) live (livenessGuarantees c) (initEnv c) (initSys c) safety (safetySys c).
(** The elements with another index (lines 310-313 and 380-383). *)
Definition others {A} (i : nat) (l : list A) : list A :=
  map snd (filter (fun e => negb (Nat.eqb (fst e) i)) (combine (seq 0 (List.length l)) l)).
Definition conjunction (l : list BF) : BF := fold_left band l btrue.

Fixpoint reportLoop (f : nat -> option report) (names : list string) (is : list nat) : option (list (string * report)) :=
  match is with
  | [] => Some []
  | i :: is =>
      match nth_error names i, f i, reportLoop f names is with
      | Some n, Some r, Some l => Some ((n, r) :: l)
      | _, _, _ => None
      end
  end.

(** execute, lines 258-438.  [None]: exhaustion of fuel, or a missing name. *)
Inductive analysisA : Type :=
| StartUnrealizable
| Reports (safety live : list (string * report)).
Definition analyzeAssumptions (c : ctx) (p : parts) : option analysisA :=
  match computeDistances c with
  | None => None
  | Some (refW, (ref, strats)) =>
      if isTrue (initialCheck c refW) then
        match generalReach c strats with
        | None => None
        | Some reach =>
            let one same (c' : ctx) :=
              match computeDistances c' with
              | None => None
              | Some (w, (new, _)) => Some (reportOf c same refW ref reach w new)
              end in
            let safetyReport i :=                                        (* lines 309-370 *)
              let safety := conjunction (others i (p_safety p)) in
              one (bf_eqb (safetyEnv c) safety) (withAssumptions c safety (livenessAssumptions c)) in
            let liveReport i :=                                          (* lines 375-437 *)
              one false (withAssumptions c btrue (others i (livenessAssumptions c))) in
            match reportLoop safetyReport (p_safetyNames p) (seq 0 (List.length (p_safety p))),
                  reportLoop liveReport (p_liveNames p) (seq 0 (List.length (livenessAssumptions c))) with
            | Some s, Some l => Some (Reports s l)
            | _, _ => None
            end
        end
      else Some StartUnrealizable
  end.
