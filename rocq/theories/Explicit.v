(** * Explicit-state strategies

    Model of GR1Context::determinize (/repo/src/tools.cpp:19-29) and of class
    XExtractExplicitStrategy (/repo/src/extensionExtractExplicitStrategy.hpp).

    Simplifications: output is collected as a list of nodes and rendered at the
    end; a key of the lookup table, which in the code is the address of a BDD
    node kept alive by bfsUsedInTheLookupTable, is the Boolean function itself. *)

From Coq Require Import String Ascii DecimalString Arith List Bool.
From Verif Require Import BDD Loop VarTypes Synth Solvers AutSpec.
Import ListNotations.
Open Scope list_scope.

(** GR1Context::determinize, tools.cpp:19-29. *)
Definition determinize1 (f : BF) (v : nat) : BF :=
  let res := band f (bnot (bvar v)) in
  if isFalse res then band f (bvar v) else res.
Definition determinize (f : BF) (vars : list nat) : BF := fold_left determinize1 vars f.

(** The positional strategy for one goal, extensionExtractExplicitStrategy.hpp:109-119;
    the accumulator is (casesCovered, strategy). *)
Definition positionalStep (c : ctx) (i : nat) (acc : BF * BF) (entry : nat * BF) : BF * BF :=
  let '(covered, strategy) := acc in
  if Nat.eqb (fst entry) i then
    let newCases := band (bexists (varCubePostOutput c) (snd entry)) (bnot covered) in
    (bor covered newCases, bor strategy (band newCases (snd entry)))
  else acc.
Definition positional (c : ctx) (data : list (nat * BF)) (i : nat) : BF :=
  snd (fold_left (positionalStep c i) data (bfalse, bfalse)).

(** lookupTableForPastStates, lines 92-93: keys are a function and a goal number. *)
Notation key := (BF * nat)%type.
Definition key_eqb (a b : key) : bool := bf_eqb (fst a) (fst b) && Nat.eqb (snd a) (snd b).
Definition table : Type := list (key * nat).
Definition lookup (t : table) (k : key) : option nat :=
  match find (fun e => key_eqb (fst e) k) t with
  | Some e => Some (snd e)
  | None => None
  end.

(** The mutable data of the worklist algorithm, lines 92-94. *)
Record work : Type := mkWork {
  tableOf : table;
  bfsOf : list BF;
  todoOf : list key
}.

(** Registering a new state, lines 101-104 and 220-222. *)
Definition register (w : work) (k : key) : work :=
  mkWork (tableOf w ++ [(k, length (bfsOf w))]) (bfsOf w ++ [fst k]) (todoOf w ++ [k]).

(** The initial to-do list, lines 97-105; the loop state is (todoInit, work).
    (operator[] of the lookup table would overwrite the entry of an existing key;
    todoInit shrinks, so keys are new.) *)
Definition initBody (c : ctx) (st : BF * work) : step (BF * work) work :=
  let '(todoInit, w) := st in
  if isFalse todoInit then Done w
  else let concrete := determinize todoInit (preVars c) in
       Cont (band todoInit (bnot concrete), register w (concrete, 0)).
Definition initLoop (c : ctx) (todoInit : BF) : option work :=
  run (initBody c) (fpFuel c) (todoInit, mkWork [] [] []).

(** Skipping satisfied goals, lines 201-206: the loop body has been executed
    [done] times so far. *)
Fixpoint jump (fuel : nat) (c : ctx) (current next : nat) (firstTry : bool) (comb : BF) : option nat :=
  match fuel with
  | O => None
  | S fuel =>
      if (negb (Nat.eqb next current) || firstTry) &&
         negb (isFalse (band (nth next (livenessGuarantees c) bfalse) comb))
      then jump fuel c current (Nat.modulo (next + 1) (length (livenessGuarantees c))) false comb
      else Some next
  end.

(** The successors of one state, lines 197-235; the loop state is
    (remainingTransitions, (work, successor numbers)).  With [perm], the same loop
    of /repo/src/extensionPermissiveExplicitStrategy.hpp:169-199, which differs in
    its line 182. *)
Definition succBody (perm : bool) (c : ctx) (goal : nat) (st : BF * (work * list nat)) :
    step (BF * (work * list nat)) (work * list nat) :=
  let '(remaining, (w, succs)) := st in
  if isFalse remaining then Done (w, succs)
  else
    let comb := determinize remaining (postVars c) in
    match jump (S (length (livenessGuarantees c))) c goal goal true comb with
    | None => Abort
    | Some next =>
        let inputCaptured := if perm then comb else bexists (varCubePostOutput c) comb in
        let target := (swapPrePost c (bexists (varCubePre c) comb), next) in
        let remaining := band remaining (bnot inputCaptured) in
        match lookup (tableOf w) target with
        | None => Cont (remaining, (register w target, succs ++ [length (bfsOf w)]))
        | Some tn => Cont (remaining, (w, succs ++ [tn]))
        end
    end.

(** doesVariableInheritType(i,Pre), lines 131 and 165. *)
Definition printedVars (c : ctx) : list nat :=
  filter (fun i => inherits (nth i (varTypes c) NoneVariableType) Pre) (seq 0 (length (varTypes c))).

(** One round of the main loop, lines 144-251.  A node is emitted together with
    the value of !todoList.empty() at its end (line 244).  lookupTable[current]
    (line 147) inserts 0 for unknown keys.  [strategy] is the vector
    positionalStrategiesForTheIndividualGoals.  With [perm], the same loop of
    extensionPermissiveExplicitStrategy.hpp:131-201. *)
Definition mainBody (perm recovery : bool) (c : ctx) (strategy : nat -> BF)
    (st : work * list (node * bool)) : step (work * list (node * bool)) (list (node * bool)) :=
  let '(w, out) := st in
  match todoOf w with
  | [] => Done out
  | current :: todo =>
      let w := mkWork (tableOf w) (bfsOf w) todo in
      let stateNum := match lookup (tableOf w) current with Some n => n | None => 0 end in
      let possibilities := nth stateNum (bfsOf w) bfalse in
      let vals := map (fun i => negb (isFalse (band possibilities (bvar i)))) (printedVars c) in
      let possibilities := band possibilities (strategy (snd current)) in
      let remaining := if recovery then possibilities else band possibilities (safetyEnv c) in
      match run (succBody perm c (snd current)) (fpFuel c) (remaining, (w, [])) with
      | None => Abort
      | Some (w, succs) =>
          Cont (w, out ++ [(mkNode stateNum (snd current) vals succs,
                            match todoOf w with [] => false | _ => true end)])
      end
  end.

(** computeAndPrintExplicitStateStrategy without the rendering. *)
Definition extractInit (recovery : bool) (c : ctx) (winning : BF) : BF :=
  if recovery then band winning (initSys c) else band (band winning (initSys c)) (initEnv c).
Definition extract (recovery : bool) (c : ctx) (winning : BF) (data : list (nat * BF)) :
    option (list (node * bool)) :=
  match initLoop c (extractInit recovery c winning) with
  | None => None
  | Some w => run (mainBody false recovery c (positional c data)) (fpFuel c + length (livenessGuarantees c)) (w, [])
  end.

(** ** Rendering *)

Definition showNat (n : nat) : string := NilEmpty.string_of_uint (Nat.to_uint n).
Definition nl : string := String "010"%char EmptyString.
Definition tab : string := String "009"%char EmptyString.
Definition quote : string := String "034"%char EmptyString.
Definition sconcat (l : list string) : string := String.concat "" l.

Definition bit (b : bool) : string := (if b then "1" else "0")%string.

(** Lines 156-173, 175-182, 228-234 and 242-250. *)
Definition textNode (names : list string) (e : node * bool) : string :=
  sconcat ["State "; showNat (n_num (fst e)); " with rank "; showNat (n_rank (fst e)); " -> <";
    String.concat ", " (map (fun p => sconcat [fst p; ":"; bit (snd p)]) (combine names (n_vals (fst e))));
    ">"; nl; tab; "With successors : ";
    String.concat ", " (map showNat (n_succ (fst e))); nl]%string.
Definition jsonNode (e : node * bool) : string :=
  sconcat [quote; showNat (n_num (fst e)); quote; ": {"; nl; tab; quote; "rank"; quote; ": ";
    showNat (n_rank (fst e)); ","; nl; tab; quote; "state"; quote; ": [";
    String.concat ", " (map bit (n_vals (fst e)));
    "],"; nl; tab; quote; "trans"; quote; ": [";
    String.concat ", " (map showNat (n_succ (fst e)));
    "]"; nl; "}"; (if snd e then "," else ""); nl; nl]%string.

(** Header, lines 124-141, and footer, lines 252-255. *)
Definition jsonHeader (names : list string) : string :=
  sconcat ["{"; quote; "version"; quote; ": 0,"; nl; " "; quote; "slugs"; quote; ": "; quote; "0.0.1"; quote; ","; nl; nl;
    " "; quote; "variables"; quote; ": [";
    String.concat ", " (map (fun n => sconcat [quote; n; quote]) names);
    "],"; nl; nl; " "; quote; "nodes"; quote; ": {"; nl]%string.
Definition jsonFooter : string := sconcat ["}}"; nl]%string.

Definition printedNames (c : ctx) : list string := map (fun i => nth i (varNames c) EmptyString) (printedVars c).

Definition render (json : bool) (c : ctx) (out : list (node * bool)) : string :=
  if json then sconcat [jsonHeader (printedNames c); sconcat (map jsonNode out); jsonFooter]
  else sconcat (map (textNode (printedNames c)) out).

(** XExtractExplicitStrategy::execute, lines 52-73 (writing to a file is the same
    text), on top of GR1Context::execute, /repo/src/synthesisContextBasics.cpp, or
    the variant with XRoboticsSemantics, and on top of one of the computations of
    the winning positions: the verdict and the automaton. *)
Definition computeExplicit (alg : algorithm) (robotics recovery : bool) (c : ctx) : option (verdict * list (node * bool)) :=
  match solve alg c with
  | None => None
  | Some (w, data) =>
      let v := verdictOf (if robotics then initialCheckRobotics c w else initialCheck c w) in
      match v with
      | Realizable =>
          match extract recovery c w data with
          | None => None
          | Some out => Some (v, out)
          end
      | _ => Some (v, [])
      end
  end.

(** The verdict and the printed text. *)
Definition executeExplicit (alg : algorithm) (robotics recovery json : bool) (c : ctx) : option (verdict * string) :=
  match computeExplicit alg robotics recovery c with
  | Some (Realizable, out) => Some (Realizable, render json c out)
  | Some (v, _) => Some (v, EmptyString)
  | None => None
  end.
