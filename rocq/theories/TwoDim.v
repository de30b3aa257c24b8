(** * Model: extensionTwoDimensionalCost.hpp (--twoDimensionalCost)

    Strategies that are meant to minimize a combination of waiting cost (how often the system waits for
    the environment to satisfy a liveness assumption) and action cost (the sum of the costs of the
    transitions taken) before the next goal is reached.

    Simplifications: cost values and weights are integers.  (The code uses doubles.  A finite set of
    doubles has a common denominator, and only sums, products with weights and comparisons occur, so that
    scaling does not matter; rounding is not modelled, nor is the correction for it by nextafter in line
    506.)  Reading numbers from text is a parameter.  Debugging output is omitted. *)

From Coq Require Import String Ascii ZArith Arith List Bool.
From Verif Require Import BDD Loop VarTypes Synth Explicit Parser.
Import ListNotations.
Local Open Scope list_scope.

(** ** TwoDimensionalCostNotionTuple, lines 6-81 *)

(** Preference data, lines 131-133. *)
Record weights : Type := mkWeights { waitingWeight : Z; actionWeight : Z; waitingPreferred : bool }.

(** Action costs; [None] is infinity. *)
Definition xcost : Type := option Z.
Definition xlt (a b : xcost) : bool :=
  match a, b with
  | Some a, Some b => Z.ltb a b
  | Some _, None => true
  | None, _ => false
  end.
Definition xeq (a b : xcost) : bool :=
  match a, b with
  | Some a, Some b => Z.eqb a b
  | None, None => true
  | _, _ => false
  end.

Record tuple : Type := mkTuple { waitingOf : nat; actionOf : xcost }.

(** combinedCost, lines 22-30. *)
Definition combinedOf (w : weights) (t : tuple) : xcost :=
  if (0 <? actionWeight w)%Z then
    match actionOf t with
    | None => None
    | Some a => Some (waitingWeight w * Z.of_nat (waitingOf t) + actionWeight w * a)%Z
    end
  else Some (waitingWeight w * Z.of_nat (waitingOf t))%Z.

(** operator <, lines 34-53. *)
Definition tlt (w : weights) (a b : tuple) : bool :=
  if xlt (combinedOf w a) (combinedOf w b) then true
  else if xlt (combinedOf w b) (combinedOf w a) then false
  else if waitingPreferred w then
    if Nat.ltb (waitingOf a) (waitingOf b) then true
    else if Nat.ltb (waitingOf b) (waitingOf a) then false
    else xlt (actionOf a) (actionOf b)
  else
    if xlt (actionOf a) (actionOf b) then true
    else if xlt (actionOf b) (actionOf a) then false
    else Nat.ltb (waitingOf a) (waitingOf b).

(** operator ==, lines 60-66, and operator <=, lines 54-59. *)
Definition teq (a b : tuple) : bool := xeq (actionOf b) (actionOf a) && Nat.eqb (waitingOf b) (waitingOf a).
Definition tle (w : weights) (a b : tuple) : bool := tlt w a b || teq a b.

(** std::set<TwoDimensionalCostNotionTuple> (line 324): insert. *)
Fixpoint tinsert (w : weights) (t : tuple) (l : list tuple) : list tuple :=
  match l with
  | [] => [t]
  | u :: r => if tlt w t u then t :: l else if tlt w u t then u :: tinsert w t r else l
  end.

(** std::map<TwoDimensionalCostNotionTuple,BF> (lines 334-335): assignment to an element, the element
    before the upper bound of a key, and the last element. *)
Definition tmap : Type := list (tuple * BF).
Fixpoint mapSet (w : weights) (t : tuple) (f : BF) (m : tmap) : tmap :=
  match m with
  | [] => [(t, f)]
  | (u, g) :: r => if tlt w t u then (t, f) :: m else if tlt w u t then (u, g) :: mapSet w t f r else (u, f) :: r
  end.
Fixpoint mapFloor (w : weights) (t : tuple) (m : tmap) : option BF :=
  match m with
  | [] => None
  | (u, g) :: r => if tlt w t u then None else match mapFloor w t r with Some f => Some f | None => Some g end
  end.
Definition mapLast (m : tmap) : BF := match rev m with [] => bfalse | (_, f) :: _ => f end.

(** ** The cost file, lines 145-212 *)

(** transitionCosts (line 136), a std::map<double,BF>. *)
Definition costMap : Type := list (Z * BF).
Fixpoint costAdd (k : Z) (f : BF) (m : costMap) : costMap :=
  match m with
  | [] => [(k, f)]
  | (k', g) :: r => if (k <? k')%Z then (k, f) :: m else if (k' <? k)%Z then (k', g) :: costAdd k f r else (k', bor g f) :: r
  end.

(** std::string::find of a space. *)
Fixpoint splitSpace (s : string) : option (string * string) :=
  match s with
  | EmptyString => None
  | String a r =>
      if (a =? " ")%char then Some (EmptyString, r)
      else match splitSpace r with Some (x, y) => Some (String a x, y) | None => None end
  end.

Section FILE.
  (** The first line, lines 161-172, and the number before the first space, lines 196-202. *)
  Variable readPreferences : string -> option weights.
  Variable readCost : string -> option Z.
  Variable ord : nat -> bool.

  (** One line, lines 186-210.  The result of find is stored in an unsigned int, which is never equal to
      std::string::npos; without a space both substr calls (lines 196 and 203) return the whole line. *)
  Definition costLine (c : ctx) (m : costMap) (line : string) : pres costMap :=
    match line with
    | EmptyString => POk m
    | String a _ =>
        if (a =? "#")%char then POk m
        else
          let (number, rest) := match splitSpace line with Some p => p | None => (line, line) end in
          match readCost number with
          | None => PErr NoCategory (* line 200 *)
          | Some k => pbind (formula ord c [PreInput; PreOutput; PostInput; PostOutput] rest)
                        (fun f => POk (costAdd k f m))
          end
    end.
  Fixpoint costLines (c : ctx) (m : costMap) (lines : list string) : pres costMap :=
    match lines with
    | [] => POk m
    | l :: ls => pbind (costLine c m l) (fun m => costLines c m ls)
    end.
  Definition loadCosts (c : ctx) (content : string) : pres (weights * costMap) :=
    let (first, rest) := match getlines content with l :: ls => (l, ls) | [] => (EmptyString, []) end in
    match readPreferences first with
    | None => PErr NoCategory (* line 170 *)
    | Some w => pbind (costLines c [] rest) (fun m => POk (w, m))
    end.
End FILE.

(** ** Costs of all transitions, lines 225-248 *)

(** Lines 225-237: the first pair of cost values with a common transition. *)
Fixpoint overlapWith (k : Z) (f : BF) (m : costMap) : option (Z * Z) :=
  match m with
  | [] => None
  | (k', g) :: r => if negb (isFalse (band f g)) then Some (k, k') else overlapWith k f r
  end.
Fixpoint overlap (m : costMap) : option (Z * Z) :=
  match m with
  | [] => None
  | (k, f) :: r => match overlapWith k f r with Some p => Some p | None => overlap r end
  end.
(** Lines 239-248. *)
Definition noCostAssigned (m : costMap) : BF := fold_left (fun acc e => band acc (bnot (snd e))) m btrue.
Definition allCosts (m : costMap) : costMap := costAdd 0%Z (noCostAssigned m) m.
(** transitionCosts[k]; operator[] would add missing entries, but only 0.0 is looked up, which is there. *)
Fixpoint costGet (k : Z) (m : costMap) : BF :=
  match m with
  | [] => bfalse
  | (k', f) :: r => if (k =? k')%Z then f else costGet k r
  end.

(** ** Additional variables, lines 219-307 *)

(** Lines 221-223. *)
Definition strengthenGoals (c : ctx) (w : BF) : ctx :=
  mkCtx (varNames c) (varTypes c) (livenessAssumptions c)
    (map (fun g => band g (swapPrePost c w)) (livenessGuarantees c))
    (initEnv c) (initSys c) (safetyEnv c) (safetySys c).

(** The values of i in line 252. *)
Fixpoint counterBits (fuel i n : nat) : list nat :=
  match fuel with
  | O => []
  | S fuel => if Nat.ltb i (n + 1) then i :: counterBits fuel (2 * i) n else []
  end.
Definition addCounter (c : ctx) (i : nat) : ctx :=
  addVars c CurrentLivenessAssumptionCounterPre CurrentLivenessAssumptionCounterPost ("_l_a_c_v_" ++ showNat i)%string.
(** Lines 260-261. *)
Definition addInfty (c : ctx) : ctx :=
  mkCtx (varNames c ++ ["_is_infty_cost_Pre"; "_is_infty_cost_Post"]%string) (varTypes c ++ [IsInftyCostPre; IsInftyCostPost])
    (livenessAssumptions c) (livenessGuarantees c) (initEnv c) (initSys c) (safetyEnv c) (safetySys c).
(** Lines 221-262. *)
Definition helperBits (c : ctx) : list nat :=
  counterBits (S (length (livenessAssumptions c))) 1 (length (livenessAssumptions c)).
Definition extendCtx (c : ctx) (w : BF) : ctx :=
  addInfty (fold_left addCounter (helperBits c) (strengthenGoals c w)).

(** Lines 115-128. *)
Definition assumptionCounterPreVars (c : ctx) : list nat := varsOf (varTypes c) [CurrentLivenessAssumptionCounterPre].
Definition assumptionCounterPostVars (c : ctx) : list nat := varsOf (varTypes c) [CurrentLivenessAssumptionCounterPost].
Definition helperPreVars (c : ctx) : list nat := varsOf (varTypes c) [CurrentLivenessAssumptionCounterPre; IsInftyCostPre].
Definition isInftyPre (c : ctx) : BF := bvar (nth 0 (varsOf (varTypes c) [IsInftyCostPre]) 0).
Definition isInftyPost (c : ctx) : BF := bvar (nth 0 (varsOf (varTypes c) [IsInftyCostPost]) 0).

(** transitiveClosureIntermediateVarVector, lines 121-123 and 263-273: the variables that are allocated
    after all others, one for every variable of type Pre.  They have no role in any other vector and are
    not part of the context in the model. *)
Definition intermediateVars (c : ctx) : list nat := seq (length (varTypes c)) (length (varVectorPre c)).

(** preTransitionalStateEncoding, lines 251 and 256. *)
Definition preTransitional (c : ctx) : BF :=
  fold_left (fun acc v => band acc (bnot (bvar v))) (assumptionCounterPreVars c) btrue.
(** nonTransitionalStatePreEncoding[i] and nonTransitionalStatePostEncoding[i], lines 285-307. *)
Definition encodeStep (i : nat) (acc : BF) (e : nat * nat) : BF :=
  band acc (if Nat.testbit (i + 1) (fst e) then bvar (snd e) else bnot (bvar (snd e))).
Definition nonTransitional (vars : list nat) (i : nat) : BF :=
  fold_left (encodeStep i) (combine (seq 0 (length vars)) vars) btrue.

(** ** One cost tuple, lines 337-678 *)

(** positionsAlreadyFoundToBeWinning, transitionsAlreadyFoundToBeWinning (lines 331-332) and the second
    components of the elements that have been added to strategyDumpingData. *)
Record found : Type := mkFound { fPos : BF; fTrans : BF; fData : list BF }.

(** winningTransitionsFound and winningPositionsFound, lines 334-335, and the todo list, line 324. *)
Record search : Type := mkSearch { sTodo : list tuple; sFound : found; sWT : tmap; sWP : tmap }.

Section TUPLE.
  Variable c : ctx. (* with the additional variables *)
  Variable w : weights.
  Variable costs : costMap.
  Variable goal : BF. (* livenessGuarantees[livenessGoal] *)

  Definition cost0 : BF := costGet 0 costs.
  Definition forced (f : BF) : BF := bforall (varCubePostInput c) (bexists (varCubePostOutput c) f).

  (** The three reachability games: lines 521-536 ([guard] are preTransitionalStateEncoding and
      !isInftyCostPreVars[0], [onTop] is false), lines 633-650 ([guard] is !isInftyCostPreVars[0]) and lines
      442-459 ([guard] is isInftyCostPreVars[0], [cheap] is true).  The loop state is
      (winningPositionsOld, winningPositionsNew, found). *)
  Definition reachStep (guard ending cheap new : BF) : BF :=
    band guard (band (safetySys c) (bor ending (band cheap (swapPrePost c new)))).
  Definition reachWon (trans : BF) : BF :=
    bforall (varCubePostInput c) (bor (bnot (safetyEnv c)) (bexists (varCubePostOutput c) trans)).
  Definition reachBody (guard ending cheap : BF) (onTop : bool) (st : BF * BF * found) : step (BF * BF * found) found :=
    let '(old, new, fd) := st in
    if bf_eqb new old then Done fd
    else
      let trans := reachStep guard ending cheap new in
      let new' := reachWon trans in
      let listed := if onTop then band (band trans new') (preTransitional c) else trans in
      let won := if onTop then band new' (preTransitional c) else new' in
      Cont (new, new', mkFound (bor (fPos fd) won) (bor (fTrans fd) listed) (fData fd ++ [listed])).
  Definition reach (guard ending cheap : BF) (onTop : bool) (start : BF) (fd : found) : option found :=
    run (reachBody guard ending cheap onTop) (fpFuel c) (btrue, start, fd).

  (** States that can wait for one assumption, lines 387-394 and 577-585; [fin] is isInftyCostPreVars[0] or its
      negation and [fin'] the same for the next state, [cheap] is true in the first case.  The loop state is
      (oldWinningSCCStates, winningSCCStates). *)
  Definition sccTransitions (pre post fin fin' cheap esc asm states : BF) : BF :=
    band (band pre fin) (bor (bnot (safetyEnv c)) (band (safetySys c)
      (bor esc (band (band (band (band (bnot asm) (swapPrePost c states)) cheap) post) fin')))).
  Definition sccBody (pre post fin fin' cheap esc asm : BF) (st : BF * BF) : step (BF * BF) BF :=
    let '(old, states) := st in
    if bf_eqb states old then Done states
    else Cont (states, band states (forced (sccTransitions pre post fin fin' cheap esc asm states))).
  Definition sccLoop (pre post fin fin' cheap esc asm start : BF) : option BF :=
    run (sccBody pre post fin fin' cheap esc asm) (fpFuel c) (bfalse, start).

  (** The transitive closure, lines 400-407 and 591-598.  The loop state is the pair of the old and the current
      relation. *)
  Definition internalTransitions (pre post fin fin' cheap asm excluded states : BF) : BF :=
    band (band (band (bnot excluded) states) (swapPrePost c states))
      (band (band (band pre (bor (bnot (safetyEnv c)) (band (safetySys c)
         (band (band (band (band (bnot asm) (swapPrePost c states)) cheap) pre) fin)))) post) fin').
  Definition compose (r : BF) : BF :=
    bexists (intermediateVars c) (band (bswap (varVectorPost c) (intermediateVars c) r)
                                       (bswap (varVectorPre c) (intermediateVars c) r)).
  Definition closureBody (st : BF * BF) : step (BF * BF) BF :=
    let '(old, r) := st in
    if bf_eqb r old then Done r else Cont (r, bor r (compose r)).
  Definition closure (r : BF) : option BF := run closureBody (fpFuel c) (bfalse, r).

  (** Lines 411-418 and 602-609. *)
  Definition finalTransitions (pre post fin fin' cheap esc asm states clos : BF) : BF :=
    let reversible := band clos (swapPrePost c clos) in
    band (band pre fin) (bor (bnot (safetyEnv c)) (band (safetySys c)
      (bor (band esc (bor (bor (bnot post) goal) (bnot fin')))
           (band (band (band (band (bnot asm) (swapPrePost c states)) reversible) cheap) fin')))).

  (** One assumption, lines 386-437 and 576-628. *)
  Definition waitFor (t : tuple) (fin fin' cheap esc : BF) (finite : bool) (i : nat) (asm : BF) (s : search) : option search :=
    let pre := nonTransitional (assumptionCounterPreVars c) i in
    let post := nonTransitional (assumptionCounterPostVars c) i in
    let fd := sFound s in
    match sccLoop pre post fin fin' cheap esc asm (bnot (fPos fd)) with
    | None => None
    | Some states =>
        (* winningPositionsFound[currentTuple], only excluded in line 591 *)
        let excluded := if finite then match mapFloor w t (sWP s) with Some f => f | None => bfalse end else bfalse in
        match closure (internalTransitions pre post fin fin' cheap asm excluded states) with
        | None => None
        | Some clos =>
            let final := finalTransitions pre post fin fin' cheap esc asm states clos in
            let tr := bor (fTrans fd) final in
            let ps := bor (fPos fd) (band states (forced final)) in
            Some (mkSearch (sTodo s) (mkFound ps tr (fData fd ++ [final])) (mapSet w t tr (sWT s)) (mapSet w t ps (sWP s)))
        end
    end.
  Fixpoint waitLoop (t : tuple) (fin fin' cheap esc : BF) (finite : bool) (i : nat) (asms : list BF) (s : search) : option search :=
    match asms with
    | [] => Some s
    | a :: asms =>
        match waitFor t fin fin' cheap esc finite i a s with
        | None => None
        | Some s => waitLoop t fin fin' cheap esc finite (S i) asms s
        end
    end.

  (** winningTransitionsFound[currentTuple] = ...; winningPositionsFound[currentTuple] = ...; *)
  Definition record (t : tuple) (fd : found) (s : search) : search :=
    mkSearch (sTodo s) fd (mapSet w t (fTrans fd) (sWT s)) (mapSet w t (fPos fd) (sWP s)).

  (** Transitions that are already known to be winning "cheaply", lines 370-381 and 560-571. *)
  Definition knownEscapes (t : tuple) (s : search) : BF :=
    match mapFloor w (mkTuple (waitingOf t - 1) (actionOf t)) (sWT s) with
    | None => bfalse
    | Some f => bexists [nth 0 (varsOf (varTypes c) [IsInftyCostPre]) 0] (bexists (assumptionCounterPreVars c) f)
    end.

  Definition insertAll (l : list tuple) (todo : list tuple) : list tuple := fold_left (fun acc t => tinsert w t acc) l todo.

  (** Infinite action cost, lines 356-478. *)
  Definition infiniteTuple (t : tuple) (s : search) : option search :=
    if Nat.eqb (waitingOf t) 0 then Some s
    else
      let before := mapLast (sWP s) in
      let esc := bor (band (safetySys c) goal) (knownEscapes t s) in
      match waitLoop t (isInftyPre c) (isInftyPost c) btrue esc false 0 (livenessAssumptions c) s with
      | None => None
      | Some s =>
          match reach (isInftyPre c) (fTrans (sFound s)) btrue true bfalse (sFound s) with
          | None => None
          | Some fd =>
              let s := record t fd s in
              if bf_eqb before (fPos fd) then Some s
              else Some (mkSearch (tinsert w (mkTuple (S (waitingOf t)) (actionOf t)) (sTodo s)) fd (sWT s) (sWP s))
          end
      end.

  (** Goal transitions that are cheap enough, lines 493-498 and 553-558. *)
  Definition goalTransitions (waiting : nat) (t : tuple) : BF :=
    fold_left (fun acc e => if tle w (mkTuple waiting (Some (fst e))) t
                            then bor acc (band (band (snd e) (safetySys c)) goal) else acc) costs bfalse.
  (** Lines 502-516. *)
  Definition endingTransitions (t : tuple) (a : Z) (s : search) : BF :=
    fold_left (fun acc e =>
        match mapFloor w (mkTuple (waitingOf t) (Some (a - fst e)%Z)) (sWP s) with
        | None => acc
        | Some f => bor acc (band (band (safetySys c) (swapPrePost c f)) (snd e))
        end) costs (goalTransitions 0 t).

  (** Waiting cost above 0, lines 546-657. *)
  Definition waitingTuple (t : tuple) (s : search) : option search :=
    let esc := bor (goalTransitions (waitingOf t - 1) t) (knownEscapes t s) in
    match waitLoop t (bnot (isInftyPre c)) (bnot (isInftyPost c)) cost0 esc true 0 (livenessAssumptions c) s with
    | None => None
    | Some s =>
        match reach (bnot (isInftyPre c)) (fTrans (sFound s)) cost0 true (fPos (sFound s)) (sFound s) with
        | None => None
        | Some fd => Some (record t fd s)
        end
    end.

  (** The new elements of the todo list, lines 666-674. *)
  Definition newTuples (t : tuple) (a : Z) : list tuple :=
    mkTuple (S (waitingOf t)) (actionOf t) ::
    flat_map (fun e => if (fst e =? 0)%Z then []
                       else [mkTuple (waitingOf t) (Some (fst e + a)%Z); mkTuple (S (waitingOf t)) (Some (fst e + a)%Z)]) costs.

  (** Finite action cost, lines 484-676. *)
  Definition finiteTuple (t : tuple) (a : Z) (s : search) : option search :=
    let before := mapLast (sWP s) in
    match reach (band (preTransitional c) (bnot (isInftyPre c))) (endingTransitions t a s) cost0 false bfalse (sFound s) with
    | None => None
    | Some fd =>
        match (if Nat.eqb (waitingOf t) 0 then Some (record t fd s) else waitingTuple t (record t fd s)) with
        | None => None
        | Some s =>
            if bf_eqb before (fPos (sFound s)) then Some s
            else Some (mkSearch (insertAll (newTuples t a) (sTodo s)) (sFound s) (sWT s) (sWP s))
        end
    end.

  (** One round of the loop, lines 337-678. *)
  Definition tupleBody (s : search) : step search search :=
    match sTodo s with
    | [] => Done s
    | t :: todo =>
        let s := mkSearch todo (sFound s) (sWT s) (sWP s) in
        match (match actionOf t with None => infiniteTuple t s | Some a => finiteTuple t a s end) with
        | None => Abort
        | Some s => Cont s
        end
    end.

  (** Lines 323-335. *)
  Definition startSearch : search :=
    mkSearch (tinsert w (mkTuple 1 None) (insertAll (map (fun e => mkTuple 0 (Some (fst e))) costs) []))
      (mkFound bfalse bfalse []) [] [].
  Definition searchGoal (fuel : nat) : option search := run tupleBody fuel startSearch.
End TUPLE.

(** ** The strategy, lines 217-728 *)

(** Lines 704-709. *)
Definition determinizeHelpers (c : ctx) (f : BF) : BF :=
  fold_left (fun acc v => band acc (bor (bnot (bvar v)) (band (bvar v) (bnot (bexists [v] (band acc (bnot (bvar v))))))))
    (helperPreVars c) f.
(** Lines 692-717: the accumulator is (initEnvCasesCoveredAlready, initSysUpdates). *)
Definition initStep (robotics : bool) (c : ctx) (winning : BF) (acc : BF * BF) (e : tuple * BF) : BF * BF :=
  let '(covered, updates) := acc in
  let new := determinizeHelpers c (snd e) in
  let updates := bor updates (band (band winning new) (bnot covered)) in
  let covered := bor covered
    (if robotics then bexists (helperPreVars c) (band winning new)
     else bexists (varCubePreOutput c) (band (band winning new) (initSys c))) in
  (covered, updates).
Definition updateInit (robotics : bool) (c : ctx) (winning : BF) (wp : tmap) : BF :=
  band (initSys c) (snd (fold_left (initStep robotics c winning) wp (bfalse, bfalse))).
Definition setInitSys (c : ctx) (f : BF) : ctx :=
  mkCtx (varNames c) (varTypes c) (livenessAssumptions c) (livenessGuarantees c) (initEnv c) f (safetyEnv c) (safetySys c).

(** The loop over the goals, lines 320-725; [fuel] bounds the number of rounds for each goal. *)
Fixpoint goalsLoop (fuel : nat) (robotics : bool) (c : ctx) (w : weights) (costs : costMap) (winning : BF)
    (j : nat) (goals : list BF) (init : BF) (data : list (nat * BF)) : option (BF * list (nat * BF)) :=
  match goals with
  | [] => Some (init, data)
  | g :: goals =>
      match searchGoal c w costs g fuel with
      | None => None
      | Some s =>
          goalsLoop fuel robotics c w costs winning (S j) goals
            (if Nat.eqb j 0 then updateInit robotics c winning (sWP s) else init)
            (data ++ map (pair j) (fData (sFound s)))
      end
  end.

(** What computeCostOptimalStrategy does: the error for overlapping costs, or the new values of the
    members (variables, guarantees, initSys) and of strategyDumpingData. *)
Inductive costResult : Type :=
| CostConflict (k k' : Z)
| CostStrategy (c : ctx) (data : list (nat * BF)).
Definition computeCostOptimal (fuel : nat) (robotics : bool) (c : ctx) (w : weights) (costs : costMap) (winning : BF) :
    option costResult :=
  match overlap costs with
  | Some (k, k') => Some (CostConflict k k')
  | None =>
      let c := extendCtx c winning in
      match goalsLoop fuel robotics c w (allCosts costs) winning 0 (livenessGuarantees c) (initSys c) [] with
      | None => None
      | Some (init, data) => Some (CostStrategy (setInitSys c init) data)
      end
  end.

(** checkRealizability, lines 735-750, with the winning positions of GR1Context::computeWinningPositions:
    verdict, and what has been computed if it is positive.  [None]: a loop does not end within the fuel. *)
Definition checkCost (fuel : nat) (robotics : bool) (c : ctx) (w : weights) (costs : costMap) : option (verdict * BF * option costResult) :=
  match computeWinningPositions c with
  | None => None
  | Some (winning, _) =>
      let v := verdictOf (if robotics then bforall (varCubePre c) (bimp (band (initEnv c) (initSys c)) winning)
                          else initialCheck c winning) in
      match v with
      | Realizable =>
          match computeCostOptimal fuel robotics c w costs winning with
          | None => None
          | Some r => Some (v, winning, Some r)
          end
      | _ => Some (v, winning, None)
      end
  end.

(** The printed automaton with --explicitStrategy. *)
Definition explicitCost (fuel : nat) (robotics recovery : bool) (c : ctx) (w : weights) (costs : costMap) :
    option (list (AutSpec.node * bool)) :=
  match checkCost fuel robotics c w costs with
  | Some (Realizable, winning, Some (CostStrategy c data)) => extract recovery c winning data
  | _ => None
  end.
