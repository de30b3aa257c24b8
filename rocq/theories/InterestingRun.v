(** * Model: extensionComputeInterestingRunOfTheSystem.hpp (--computeInterestingRunOfTheSystem)

    Not modelled: the grouping of variables with '@' in their names and the padding of the
    table (lines 167-213, 255-281 and 300-327 only rearrange the values of the position, 345-400), the files
    written for debugging. *)

From Coq Require Import Arith List Bool.
From Verif Require Import BDD Loop VarTypes Synth Solvers Explicit Shell.
Import ListNotations.

(** ** Strategy for the environment *)

(** nonDeadlockingTransitions for the set nonDeadlockingStates = [v], line 77. *)
Definition deadlockFree (c : ctx) (v : BF) : BF :=
  band (bforall (varCubePostOutput c) (bor (swapPrePost c v) (bnot (safetySys c)))) (safetyEnv c).
(** Lines 72-79.  The loop is entered, as it starts with true and false, and it is left when
    an iteration does not change nonDeadlockingStates: as [fpUpdate]. *)
Definition deadlockBody (c : ctx) (st : BF * BF) : step (BF * BF) (BF * BF) :=
  let tr := deadlockFree c (fst st) in
  fpUpdate (fst st) (bexists (varCubePostInput c) tr) tr.
Definition nonDeadlocking (c : ctx) : option BF := option_map snd (run (deadlockBody c) (fpFuel c) (btrue, bfalse)).

(** newMoves, line 91. *)
Definition newMoves (c : ctx) (nd asm old : BF) : BF :=
  bforall (varCubePostOutput c) (bor (band (bor asm (swapPrePost c old)) nd) (bnot (safetySys c))).
(** One iteration of the loop of lines 89-94; the state is (winning, moves). *)
Definition envBody (c : ctx) (nd asm : BF) (st : BF * BF) : step (BF * BF) (BF * BF) :=
  let m := newMoves c nd asm (fst st) in
  let w := bexists (varCubePostInput c) m in
  fpUpdate (fst st) w (bor (snd st) (band (band w (bnot (fst st))) m)).
(** Lines 85-98: moves | !winning. *)
Definition envStrategy (c : ctx) (nd asm : BF) : option BF :=
  match run (envBody c nd asm) (fpFuel c) (bfalse, bfalse) with
  | Some (w, m) => Some (bor m (bnot w))
  | None => None
  end.
Fixpoint envStrategies (c : ctx) (nd : BF) (asms : list BF) : option (list BF) :=
  match asms with
  | [] => Some []
  | a :: asms =>
      match envStrategy c nd a, envStrategies c nd asms with
      | Some e, Some l => Some (e :: l)
      | _, _ => None
      end
  end.

(** ** The run *)

(** The vectors of lines 106-112. *)
Record history : Type := mkHistory {
  h_trace : list BF;
  h_sys : list nat; h_sysSat : list bool;
  h_env : list nat; h_envSat : list bool;
  h_envViolation : list bool; h_sysViolation : list bool
}.

(** The loop of lines 117-163 with [n] iterations left, current position [p], system goal [g]
    and environment goal [a] (the last elements of the vectors) and [k] calls of rand() before;
    the result contains these elements and those added later.  [None]: access out of bounds. *)
Fixpoint runLoop (rand : nat -> bool) (c : ctx) (strategies moves : list BF) (n k : nat) (p : BF) (g a : nat) : option history :=
  let stop := Some (mkHistory [p] [g] [] [a] [] [] []) in
  match n with
  | O => stop
  | S n =>
      if isFalse p then stop else
      match nth_error strategies g, nth_error moves a, nth_error (livenessGuarantees c) g, nth_error (livenessAssumptions c) a with
      | Some strategy, Some move, Some guarantee, Some assumption =>
          let next := band (band (band p (safetyEnv c)) strategy) move in
          let '(edge, k) := determinizeRandomized rand k next (postVars c) in
          let sat := blt edge guarantee in
          let g' := if sat then (g + 1) mod length (livenessGuarantees c) else g in
          let esat := blt edge assumption in
          let a' := if esat then (a + 1) mod length (livenessAssumptions c) else a in
          let '(q, k) := determinizeRandomized rand k (swapPrePost c (bexists (varCubePre c) next)) (preVars c) in
          match runLoop rand c strategies moves n k q g' a' with
          | None => None
          | Some h => Some (mkHistory (p :: h_trace h) (g :: h_sys h) (sat :: h_sysSat h) (a :: h_env h) (esat :: h_envSat h)
                              (negb (blt edge (safetyEnv c)) :: h_envViolation h) (negb (blt edge (safetySys c)) :: h_sysViolation h))
          end
      | _, _, _, _ => None
      end
  end.

(** ** The table, lines 215-343 *)
Inductive content : Type :=
| Values (l : list bool)
| EnvLoses
| SysLoses.
(** Values read from a vector: [None] if its length is exceeded.  "(safety prop. violation)" is
    printed in the first column for [r_envViolation]; [r_sysViolation] is read, but the text is
    added to a string that is no longer used (line 236). *)
Record row : Type := mkRow {
  r_env : option nat; r_envSat : option bool; r_envViolation : option bool;
  r_sys : option nat; r_sysSat : option bool; r_sysViolation : option bool;
  r_content : content
}.
Definition rowOf (c : ctx) (h : history) (i : nat) : row :=
  let p := nth i (h_trace h) bfalse in
  mkRow (nth_error (h_env h) i) (nth_error (h_envSat h) i) (nth_error (h_envViolation h) i)
    (nth_error (h_sys h) i) (nth_error (h_sysSat h ++ [false]) i) (nth_error (h_sysViolation h) i)
    (if isFalse p then
       if isFalse (band (nth (i - 1) (h_trace h) bfalse) (safetyEnv c)) then EnvLoses else SysLoses
     else Values (positionValues c p)).

(** execute and computeRun, lines 402-411 and 44-165; checkRealizability does not fail (C03). *)
Inductive runResult : Type :=
| NoPosition
| Rows (l : list row).
Definition interestingRun (rand : nat -> bool) (c : ctx) : option runResult :=
  match solve Basic c with
  | None => None
  | Some (w, data) =>
      let p := band (band w (initEnv c)) (initSys c) in
      if isFalse p then Some NoPosition else
      match nonDeadlocking c with
      | None => None
      | Some nd =>
          match envStrategies c nd (livenessAssumptions c) with
          | None => None
          | Some moves =>
              match runLoop rand c (map (positional c data) (seq 0 (length (livenessGuarantees c)))) moves 100 0
                      (determinize p (preVars c)) 0 0 with
              | None => None
              | Some h => Some (Rows (map (rowOf c h) (seq 0 (length (h_trace h)))))
              end
          end
      end
  end.
