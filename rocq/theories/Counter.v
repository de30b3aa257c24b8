(** * Counterstrategies

    Model of classes XCounterStrategy (/repo/src/extensionCounterstrategy.hpp) and
    XExtractExplicitCounterStrategy (/repo/src/extensionExtractExplicitCounterstrategy.hpp).

    Simplifications: as in Explicit.v, output is collected as a list of nodes and
    rendered at the end, and a key of the lookup table, which in the code contains
    the address of a BDD node that is kept alive, contains the Boolean function
    itself.  The assertion of line 174 of the second file is compiled out
    (-DNDEBUG). *)

From Coq Require Import String Ascii Arith List Bool.
From Verif Require Import BDD Loop VarTypes Synth Explicit CounterSpec.
Import ListNotations.
Open Scope list_scope.

(** Entries of strategyDumpingData, extensionCounterstrategy.hpp:32: assumption
    number, guarantee number, transitions. *)
Definition entry : Type := (nat * nat) * BF.

(** foundPaths, extensionCounterstrategy.hpp:101-102. *)
Definition pathsC (c : ctx) (live asm x : BF) : BF :=
  bforall (varCubePostOutput c)
    (band (safetyEnv c) (bimp (safetySys c) (band live (bor (swapPrePost c x) asm)))).

(** Innermost least fixed point, extensionCounterstrategy.hpp:93-110; the loop state
    is (mu0, strategyDumpingData). *)
Definition mu0BodyC (c : ctx) (i j : nat) (live asm : BF) (st : BF * list entry) :
    step (BF * list entry) (BF * list entry) :=
  let paths := pathsC c live asm (fst st) in
  fpUpdate (fst st) (bexists (varCubePostInput c) paths) (snd st ++ [((i, j), paths)]).
Definition mu0LoopC (c : ctx) (i j : nat) (live asm : BF) (data : list entry) : option (BF * list entry) :=
  run (mu0BodyC c i j live asm) (fpFuel c) (bfalse, data).

(** Loop over the liveness assumptions, extensionCounterstrategy.hpp:85-115. *)
Fixpoint asmLoopC (c : ctx) (j : nat) (live : BF) (i : nat) (asms : list BF)
    (good : BF) (data : list entry) : option (BF * list entry) :=
  match asms with
  | [] => Some (good, data)
  | a :: asms =>
      match mu0LoopC c i j live a data with
      | None => None
      | Some (mu0, data) => asmLoopC c j live (S i) asms (band good mu0) data
      end
  end.

(** Middle greatest fixed point, extensionCounterstrategy.hpp:74-119; the loop state
    is (nu1, (livetransitions, strategyDumpingData)); [old] is
    strategyDumpingDataOld. *)
Definition nu1BodyC (c : ctx) (j : nat) (old : list entry) (st : BF * (BF * list entry)) :
    step (BF * (BF * list entry)) (BF * (BF * list entry)) :=
  let '(nu1, (live, _)) := st in
  let live := band live (swapPrePost c nu1) in
  match asmLoopC c j live 0 (livenessAssumptions c) nu1 old with
  | None => Abort
  | Some (good, data) => fpUpdate nu1 good (live, data)
  end.
Definition nu1LoopC (c : ctx) (j : nat) (live : BF) (data : list entry) :
    option (BF * (BF * list entry)) :=
  run (nu1BodyC c j data) (fpFuel c) (btrue, (live, data)).

(** Loop over the liveness guarantees, extensionCounterstrategy.hpp:62-123. *)
Fixpoint goalLoopC (c : ctx) (mu2 : BF) (j : nat) (goals : list BF)
    (next : BF) (data : list entry) : option (BF * list entry) :=
  match goals with
  | [] => Some (next, data)
  | g :: goals =>
      match nu1LoopC c j (bor (bnot g) (swapPrePost c mu2)) data with
      | None => None
      | Some (nu1, (_, data)) => goalLoopC c mu2 (S j) goals (bor next nu1) data
      end
  end.

(** Outer least fixed point, extensionCounterstrategy.hpp:53-132; the loop state is
    (mu2, strategyDumpingData), which is never cleared. *)
Definition mu2BodyC (c : ctx) (st : BF * list entry) : step (BF * list entry) (BF * list entry) :=
  match goalLoopC c (fst st) 0 (livenessGuarantees c) bfalse (snd st) with
  | None => Abort
  | Some (next, data) => fpUpdate (fst st) next data
  end.
Definition computeCounter (c : ctx) : option (BF * list entry) :=
  run (mu2BodyC c) (fpFuel c) (bfalse, []).

(** result, extensionCounterstrategy.hpp:139-144. *)
Definition counterCheck (robotics : bool) (c : ctx) (w : BF) : BF :=
  if robotics then
    bexists (varCubePreInput c) (bexists (varCubePreOutput c) (band (band (initEnv c) (initSys c)) w))
  else
    bexists (varCubePreInput c)
      (band (initEnv c) (bforall (varCubePreOutput c) (bimp (initSys c) w))).

(** Lines 147-150. *)
Definition verdictOfC (result : BF) : verdict :=
  if negb (isConstant result) then InternalError
  else if negb (isTrue result) then Realizable else Unrealizable.

(** XCounterStrategy::checkRealizability, extensionCounterstrategy.hpp:134-151. *)
Definition checkCounter (robotics : bool) (c : ctx) : verdict :=
  match computeCounter c with
  | None => NoTermination
  | Some (w, _) => verdictOfC (counterCheck robotics c w)
  end.

(** ** Extraction: extensionExtractExplicitCounterstrategy.hpp *)

(** positionalStrategiesForTheIndividualGoals[i][j], lines 96-118. *)
Definition positionalStepC (c : ctx) (i j : nat) (strategy : BF) (e : entry) : BF :=
  if Nat.eqb (fst (fst e)) i && Nat.eqb (snd (fst e)) j then
    bor strategy (band (bforall (varCubePostOutput c) (snd e)) (bnot (bexists (varCubePost c) strategy)))
  else strategy.
Definition positionalC (c : ctx) (data : list entry) (i j : nat) : BF :=
  fold_left (positionalStepC c i j) data bfalse.

(** lookupTableForPastStates etc., lines 91-93. *)
Definition ckey : Type := BF * (nat * nat).
Definition ckey_eqb (a b : ckey) : bool :=
  bf_eqb (fst a) (fst b) && (Nat.eqb (fst (snd a)) (fst (snd b)) && Nat.eqb (snd (snd a)) (snd (snd b))).
Definition clookup (t : list (ckey * nat)) (k : ckey) : option nat :=
  match find (fun e => ckey_eqb (fst e) k) t with
  | Some e => Some (snd e)
  | None => None
  end.
Record cwork : Type := mkCWork {
  ctableOf : list (ckey * nat);
  cbfsOf : list BF;
  ctodoOf : list ckey
}.

(** Lines 138-142 and 211-213. *)
Definition cregister (w : cwork) (k : ckey) : cwork :=
  mkCWork (ctableOf w ++ [(k, length (cbfsOf w))]) (cbfsOf w ++ [fst k]) (ctodoOf w ++ [k]).
(** addDeadlocked, lines 248-250: the new state is not put on the to-do list. *)
Definition cregisterDead (w : cwork) (k : ckey) : cwork :=
  mkCWork (ctableOf w ++ [(k, length (cbfsOf w))]) (cbfsOf w ++ [fst k]) (ctodoOf w).

(** found_j_index, lines 130-136. *)
Definition foundGoal (c : ctx) (strategy : nat -> nat -> BF) (concrete : BF) : nat :=
  match find (fun j => negb (isFalse (band concrete (strategy 0 j)))) (seq 0 (length (livenessGuarantees c))) with
  | Some j => j
  | None => 0
  end.

(** Initial to-do list, lines 123-143. *)
Definition initBodyC (c : ctx) (strategy : nat -> nat -> BF) (st : BF * cwork) : step (BF * cwork) cwork :=
  let '(todoInit, w) := st in
  if isFalse todoInit then Done w
  else let concrete := determinize todoInit (preVars c) in
       Cont (band todoInit (bnot concrete), cregister w (concrete, (0, foundGoal c strategy concrete))).
Definition initLoopC (c : ctx) (strategy : nat -> nat -> BF) (todoInit : BF) : option cwork :=
  run (initBodyC c strategy) (fpFuel c) (todoInit, mkCWork [] [] []).

(** Jumping over satisfied liveness properties, lines 185-190 and 191-196. *)
Fixpoint jumpC (fuel : nat) (lives : list BF) (current next : nat) (firstTry : bool) (comb : BF) : option nat :=
  match fuel with
  | O => None
  | S fuel =>
      if (negb (Nat.eqb next current) || firstTry) &&
         negb (isFalse (band (nth next lives bfalse) comb))
      then jumpC fuel lives current (Nat.modulo (next + 1) (length lives)) false comb
      else Some next
  end.

(** The successors of one state, lines 178-227; the loop state is
    (remainingTransitions, (work, successor numbers)). *)
Definition succBodyC (c : ctx) (rank : nat * nat) (st : BF * (cwork * list nat)) :
    step (BF * (cwork * list nat)) (cwork * list nat) :=
  let '(remaining, (w, succs)) := st in
  let safeTransition := band remaining (safetySys c) in
  if isFalse safeTransition then Done (w, succs)
  else
    let comb := determinize safeTransition (postOutputVars c) in
    match jumpC (S (length (livenessAssumptions c))) (livenessAssumptions c) (fst rank) (fst rank) true comb,
          jumpC (S (length (livenessGuarantees c))) (livenessGuarantees c) (snd rank) (snd rank) true comb with
    | Some nextA, Some nextG =>
        let remaining := band remaining (bnot comb) in
        let target := (swapPrePost c (bexists (varCubePre c) comb), (nextA, nextG)) in
        match clookup (ctableOf w) target with
        | None => Cont (remaining, (cregister w target, succs ++ [length (cbfsOf w)]))
        | Some tn => Cont (remaining, (w, succs ++ [tn]))
        end
    | _, _ => Abort
    end.

(** doesVariableInheritType(i,PreInput), line 259. *)
Definition printedInputs (c : ctx) : list nat :=
  filter (fun i => inherits (nth i (varTypes c) NoneVariableType) PreInput) (seq 0 (length (varTypes c))).

(** addDeadlocked, lines 238-276: the work list data, the number of the target and
    the node that is printed if the target is new. *)
Definition addDeadlocked (c : ctx) (candidates : BF) (rank : nat * nat) (w : cwork) :
    cwork * nat * list cnode :=
  let comb := determinize candidates (postVars c) in
  let comb := swapPrePost c (bexists (varCubePre c) (bexists (varCubePostOutput c) comb)) in
  let target := (comb, rank) in
  match clookup (ctableOf w) target with
  | None =>
      let tn := length (cbfsOf w) in
      (cregisterDead w target, tn,
       [mkCNode tn rank (map (fun i => negb (isFalse (band comb (bvar i)))) (printedInputs c)) None])
  | Some tn => (w, tn, [])
  end.

(** One round of the main loop, lines 146-231. *)
Definition mainBodyC (c : ctx) (strategy : nat -> nat -> BF) (st : cwork * list cnode) :
    step (cwork * list cnode) (list cnode) :=
  let '(w, out) := st in
  match ctodoOf w with
  | [] => Done out
  | current :: todo =>
      let w := mkCWork (ctableOf w) (cbfsOf w) todo in
      let stateNum := match clookup (ctableOf w) current with Some n => n | None => 0 end in
      let possibilities := nth stateNum (cbfsOf w) bfalse in
      let vals := map (fun i => negb (isFalse (band possibilities (bvar i)))) (printedVars c) in
      let deadlockInput := bforall (varCubePostOutput c)
        (band (band possibilities (safetyEnv c)) (bnot (safetySys c))) in
      if negb (isFalse deadlockInput) then
        let '(w, tn, dead) := addDeadlocked c deadlockInput (snd current) w in
        Cont (w, out ++ mkCNode stateNum (snd current) vals (Some [tn]) :: dead)
      else
        let remaining := determinize (band possibilities (strategy (fst (snd current)) (snd (snd current))))
                           (postInputVars c) in
        match run (succBodyC c (snd current)) (fpFuel c) (remaining, (w, [])) with
        | None => Abort
        | Some (w, succs) => Cont (w, out ++ [mkCNode stateNum (snd current) vals (Some succs)])
        end
  end.

(** computeAndPrintExplicitStateStrategy without the rendering, lines 83-232. *)
Definition extractC (c : ctx) (winning : BF) (data : list entry) : option (list cnode) :=
  let strategy := positionalC c data in
  match initLoopC c strategy (band (band winning (initEnv c)) (initSys c)) with
  | None => None
  | Some w => run (mainBodyC c strategy)
                (fpFuel c + length (livenessAssumptions c) + length (livenessGuarantees c)) (w, [])
  end.

(** XExtractExplicitCounterStrategy::execute, lines 63-84, on top of
    GR1Context::execute: verdict and printed states. *)
Definition computeCounterstrategy (robotics : bool) (c : ctx) : option (verdict * list cnode) :=
  match computeCounter c with
  | None => None
  | Some (w, data) =>
      match verdictOfC (counterCheck robotics c w) with
      | Unrealizable =>
          match extractC c w data with
          | None => None
          | Some out => Some (Unrealizable, out)
          end
      | v => Some (v, [])
      end
  end.

(** ** Rendering, lines 151-165, 221-230 and 251-270 *)
Definition textCNode (names inputNames : list string) (v : cnode) : string :=
  sconcat ["State "; showNat (c_num v); " with rank ("; showNat (fst (c_rank v)); ","; showNat (snd (c_rank v)); ") -> <";
    String.concat ", " (map (fun p => sconcat [fst p; ":"; bit (snd p)])
      (combine (match c_succ v with Some _ => names | None => inputNames end) (c_vals v)));
    ">"; nl; tab;
    match c_succ v with
    | Some l => sconcat ["With successors : "; String.concat ", " (map showNat l)]
    | None => "With no successors."
    end; nl]%string.
Definition printedInputNames (c : ctx) : list string := map (fun i => nth i (varNames c) EmptyString) (printedInputs c).
Definition renderC (c : ctx) (out : list cnode) : string :=
  sconcat (map (textCNode (printedNames c) (printedInputNames c)) out).
