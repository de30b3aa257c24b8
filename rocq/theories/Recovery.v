(** * Optimistic recovery

    Model of XOptimisticRecovery::computeWinningPositions,
    /repo/src/extensionOptimisticRecovery.hpp:29-48.  No combination of command line
    options uses this class. *)

From Coq Require Import Arith List Bool.
From Verif Require Import BDD Loop VarTypes Synth.
Import ListNotations.

(** Loop, lines 35-46; the loop state is (mu, strategyDumpingData). *)
Definition recoveryBody (c : ctx) (st : BF * list (nat * BF)) : step (BF * list (nat * BF)) (BF * list (nat * BF)) :=
  let additionalTransitions := band (swapPrePost c (fst st)) (safetySys c) in
  let additionalStates := bexists (varCubePost c) additionalTransitions in
  fpUpdate (fst st) additionalStates
    (snd st ++ map (fun j => (j, additionalTransitions)) (seq 0 (length (livenessGuarantees c)))).

(** Lines 29-48; the result is (winningPositions, strategyDumpingData).  Since the loop
    need not terminate, the result is a relation: [Runs] is the unbounded semantics of
    the loop. *)
Definition recovers (c : ctx) (w : BF) (data : list (nat * BF)) : Prop :=
  exists d mu, computeWinningPositions c = Some (w, d) /\ Runs (recoveryBody c) (w, d) (mu, data).
