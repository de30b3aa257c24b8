(** * Abstract winning traces (option --computeAbstractWinningTrace)

    Model of XAbstractWinningTraceGenerator,
    /repo/src/extensionAbstractWinningTraceGenerator.hpp.  Not modelled: grouping of
    variables with an '@' in their names (lines 441-477 and the parts of the table for
    grouped variables), the layout of the table (lines 46-103), the file written in line 139
    and the text on stderr. *)

From Coq Require Import String Arith List Bool.
From Verif Require Import BDD Loop VarTypes Synth Explicit TraceSpec.
Import ListNotations.

(** ** The enforceable predecessors; [env] is the parameter environmentShouldWin *)

(** Lines 118 and 187. *)
Definition envPre (c : ctx) (w : BF) : BF :=
  bexists (varCubePostInput c) (band (safetyEnv c)
    (bforall (varCubePostOutput c) (bor (swapPrePost c w) (bnot (safetySys c))))).
(** Lines 130 and 189. *)
Definition sysPre (c : ctx) (w : BF) : BF :=
  bforall (varCubePostInput c) (bexists (varCubePostOutput c)
    (bimp (safetyEnv c) (band (safetySys c) (swapPrePost c w)))).
Definition preOf (c : ctx) (env : bool) (w : BF) : BF := if env then envPre c w else sysPre c w.

(** Line 121. *)
Definition envInit (c : ctx) (w : BF) : bool :=
  isTrue (bexists (varCubePreInput c) (bforall (varCubePreOutput c)
            (bor (bnot (initSys c)) (band (initEnv c) w)))).
(** Line 134. *)
Definition sysInit (c : ctx) (w : BF) : bool :=
  isTrue (bforall (varCubePreInput c) (bexists (varCubePreOutput c)
            (bimp (initEnv c) (band (initSys c) w)))).
Definition initOf (c : ctx) (env : bool) (w : BF) : bool := if env then envInit c w else sysInit c w.

(** Loops in lines 115-124 and 127-137; the loop state is (winningPositions, distances).  The
    result is [None] if roundFoundInitPos stays -1. *)
Definition distBody (c : ctx) (env : bool) (st : BF * list BF) : step (BF * list BF) (option (BF * list BF)) :=
  let '(w, ds) := st in
  let ds := ds ++ [w] in
  let w' := bor w (preOf c env w) in
  if initOf c env w' then Done (Some (w', ds))
  else if bf_eqb w' w then Done None else Cont (w', ds).

(** ** Making the trace as concrete as possible *)

Fixpoint setNth {A : Type} (i : nat) (a : A) (l : list A) : list A :=
  match l, i with
  | [], _ => []
  | _ :: l, O => a :: l
  | b :: l, S i => b :: setNth i a l
  end.
(** The literal of mycase, lines 177-183. *)
Definition literal (v : nat) (mycase : bool) : BF := if mycase then bnot (bvar v) else bvar v.
(** Lines 174-195 for one position i of distances, one variable and one value of mycase;
    the state is (distances, madeChange).  foundARestriction is never set. *)
Definition tryOne (c : ctx) (env : bool) (i v : nat) (mycase : bool) (st : list BF * bool) : list BF * bool :=
  let '(ds, madeChange) := st in
  let candidatePost := band (nth i ds bfalse) (literal v mycase) in
  let candidatePre := nth (S i) ds bfalse in
  if bleq candidatePre (preOf c env candidatePost) && negb (bf_eqb candidatePost (nth i ds bfalse))
  then (setNth i candidatePost ds, true) else (ds, madeChange).
(** All attempts of one pass in the order of the loops in lines 166-172. *)
Definition attempts (c : ctx) (size : nat) : list (nat * (nat * bool)) :=
  flat_map (fun i => flat_map (fun v => [(i, (v, false)); (i, (v, true))]) (preVars c)) (rev (seq 0 (size - 1))).
(** Lines 164-198. *)
Definition pass (c : ctx) (env : bool) (ds : list BF) : list BF * bool :=
  fold_left (fun st a => tryOne c env (fst a) (fst (snd a)) (snd (snd a)) st) (attempts c (length ds)) (ds, false).
(** Lines 162-199. *)
Definition passBody (c : ctx) (env : bool) (ds : list BF) : step (list BF) (list BF) :=
  let '(ds, madeChange) := pass c env ds in if madeChange then Cont ds else Done ds.
(** A bound on the number of passes: every pass but the last one changes something. *)
Definition passFuel (c : ctx) (ds : list BF) : nat := length ds + S (length (varTypes c)).

(** Lines 216-218. *)
Definition lastInput (c : ctx) (env : bool) (ds : list BF) : list BF :=
  if Nat.ltb 1 (length ds) && env then
    setNth 0 (swapPrePost c (determinize (bforall (varCubePre c) (bforall (varCubePostOutput c)
      (bor (band (safetyEnv c) (bnot (safetySys c))) (bnot (nth 1 ds bfalse))))) (postInputVars c))) ds
  else ds.

(** ** The table *)
(** Lines 299-307 and 359-367: "X", "0", "1" and "*". *)
Definition cellOf (d : BF) (v : nat) : cell :=
  if isFalse d then Never
  else if isFalse (band d (bvar v)) then Zero
  else if isFalse (band d (bnot (bvar v))) then One
  else Any.
(** The rows: first the inputs, then the outputs. *)
Definition rowVars (c : ctx) : list nat := varsOf (varTypes c) [PreInput] ++ varsOf (varTypes c) [PreOutput].
(** The names in the first column and the columns of the rounds 0, 1, ... *)
Record table : Type := mkTable {
  t_names : list string;
  t_columns : list (list cell)
}.
(** Lines 228-416. *)
Definition tableOf (c : ctx) (ds : list BF) : table :=
  mkTable (map (fun v => nth v (varNames c) ""%string) (rowVars c))
    (map (fun d => map (cellOf d) (rowVars c)) (rev ds)).

(** The effects of computeAbstractStrategyTrace, lines 106-424: nothing is printed, "There
    is no strategy ...", or a table. *)
Inductive traceResult : Type :=
| Nothing
| NoStrategy
| Table (t : table).
Definition traceOf (c : ctx) (env : bool) : option traceResult :=
  match run (distBody c env) (fpFuel c) (bfalse, []) with
  | None => None
  | Some None => Some Nothing
  | Some (Some (w, ds)) =>
      let startingState := band (band (initEnv c) (initSys c)) w in
      if isFalse startingState then Some NoStrategy
      else
        let ds := ds ++ [determinize startingState (preVars c)] in
        match run (passBody c env) (passFuel c ds) ds with
        | None => None
        | Some ds => Some (Table (tableOf c (lastInput c env ds)))
        end
  end.

(** execute, lines 480-481: the countertrace and the trace. *)
Definition abstractTraces (c : ctx) : option (traceResult * traceResult) :=
  match traceOf c true with
  | None => None
  | Some counter =>
      match traceOf c false with
      | None => None
      | Some trace => Some (counter, trace)
      end
  end.
