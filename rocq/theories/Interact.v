(** * Interaction of safety and liveness properties (option --analyzeSafetyLivenessInteraction)

    Model of XAnalyzeSafetyLivenessInteraction,
    /repo/src/extensionAnalyzeSafetyLivenessInteraction.hpp.  Not modelled: the layout of
    the table. *)

From Coq Require Import String Arith List Bool.
From Verif Require Import BDD Loop VarTypes Synth.
Import ListNotations.

(** The specification with some parts deactivated, lines 51-79. *)
Definition restrictTo (c : ctx) (hasSafetyAssumptions hasLivenessAssumptions hasSafetyGuarantees hasLivenessGuarantees : bool) : ctx :=
  mkCtx (varNames c) (varTypes c)
    (if hasLivenessAssumptions then livenessAssumptions c else [btrue])
    (if hasLivenessGuarantees then livenessGuarantees c else [btrue])
    (initEnv c) (initSys c)
    (if hasSafetyAssumptions then safetyEnv c else btrue)
    (if hasSafetyGuarantees then safetySys c else btrue).
(** (i & 8)>0 etc., lines 52-55. *)
Definition row (c : ctx) (i : nat) : ctx :=
  restrictTo c (Nat.testbit i 3) (Nat.testbit i 2) (Nat.testbit i 1) (Nat.testbit i 0).

(** Lines 83-84 and 120-121; the same functions as in checkRealizability. *)
Definition winsClassical (c : ctx) (w : BF) : bool := isTrue (initialCheck c w).
Definition winsRobotics (c : ctx) (w : BF) : bool :=  isTrue (initialCheckRobotics c w).
Definition bothSemantics (c : ctx) : option (bool * bool) :=
  match computeWinningPositions c with
  | None => None
  | Some (w, _) => Some (winsClassical c w, winsRobotics c w)
  end.
(** Loop over the rows, lines 51-99. *)
Fixpoint rowLoop (c : ctx) (is : list nat) : option (list (bool * bool)) :=
  match is with
  | [] => Some []
  | i :: is =>
      match bothSemantics (row c i), rowLoop c is with
      | Some r, Some rs => Some (r :: rs)
      | _, _ => None
      end
  end.

(** The additional variable, lines 107-110. *)
Definition withFailed (c : ctx) : ctx :=
  mkCtx (varNames c ++ ["safetyGuaranteesFailed"%string; "safetyGuaranteesFailed"%string])
        (varTypes c ++ [PreOutput; PostOutput])
        (livenessAssumptions c) (livenessGuarantees c) (initEnv c) (initSys c) (safetyEnv c) (safetySys c).
(** The specification in which failed guarantees are recorded, lines 112-117. *)
Definition nonStrict (c : ctx) : ctx :=
  let pre := bvar (length (varTypes c)) in
  let post := bvar (S (length (varTypes c))) in
  let c' := withFailed c in
  mkCtx (varNames c') (varTypes c') (livenessAssumptions c) (livenessGuarantees c ++ [bnot post])
        (initEnv c) (initSys c) (safetyEnv c)
        (bxor (bnot post) (bor (bnot (safetySys c)) pre)).

(** ** Driving the other player into a deadlock *)

(** What is printed: the number of rounds, and for the environment if the remark on
    initial positions is printed. *)
Inductive falsification : Type :=
| EnvCan (rounds : nat) (remark : bool)
| EnvCannot
| SysCan (rounds : nat)
| SysCannot.

(** Line 151. *)
Definition envRound (c : ctx) (w : BF) : BF :=
  bor w (bexists (varCubePostInput c) (band (safetyEnv c)
           (bforall (varCubePostOutput c) (bor (swapPrePost c w) (bnot (safetySys c)))))).
(** Line 154. *)
Definition envInitial (c : ctx) (w : BF) : bool :=
  isTrue (bexists (varCubePreInput c) (bforall (varCubePreOutput c)
            (bor (bnot (initSys c)) (band (initEnv c) w)))).
(** Loop, lines 149-157; the loop state is (winningPositions, round).  The loop is left when
    an initial position is found or nothing changes. *)
Definition envBody (c : ctx) (st : BF * nat) : step (BF * nat) (option (BF * nat)) :=
  let '(w, round) := st in
  let w' := envRound c w in
  if envInitial c w' then Done (Some (w', S round))
  else if bf_eqb w' w then Done None else Cont (w', S round).
(** Lines 144-167. *)
Definition envFalsify (c : ctx) : option falsification :=
  match run (envBody c) (fpFuel c) (bfalse, 0) with
  | None => None
  | Some (Some (w, round)) => Some (EnvCan round (isFalse (band (band (initEnv c) (initSys c)) w)))
  | Some None => Some EnvCannot
  end.

(** Line 180. *)
Definition sysRound (c : ctx) (w : BF) : BF :=
  bor w (bforall (varCubePostInput c) (bexists (varCubePostOutput c)
           (bor (band (safetySys c) (swapPrePost c w)) (bnot (safetyEnv c))))).
(** Loop, lines 178-186; the loop state is (winningPositions, (round, roundFoundInitPos)).  Line 183
    is the check of [winsClassical]. *)
Definition sysBody (c : ctx) (st : BF * (nat * option nat)) : step (BF * (nat * option nat)) (option nat) :=
  let '(w, (round, found)) := st in
  let w' := sysRound c w in
  let found := match found with
               | Some r => Some r
               | None => if winsClassical c w' then Some (S round) else None
               end in
  if bf_eqb w' w then Done found else Cont (w', (S round, found)).
(** Lines 173-193. *)
Definition sysFalsify (c : ctx) : option falsification :=
  match run (sysBody c) (fpFuel c) (bfalse, (0, None)) with
  | None => None
  | Some (Some r) => Some (SysCan r)
  | Some None => Some SysCannot
  end.

(** ** execute *)

(** The output: the table, the answers on the non-strict implication (only if one of
    the two results in the last row is negative), and the note on deadlocks. *)
Record interaction : Type := mkInteraction {
  ia_rows : list (bool * bool);
  ia_nonStrict : option (bool * bool);
  ia_falsify : falsification
}.

(** Lines 35-196. *)
Definition interactionOf (c : ctx) : option interaction :=
  match rowLoop c (seq 0 16) with
  | None => None
  | Some rows =>
      let '(classical15, robotics15) := nth 15 rows (false, false) in
      let extra := negb classical15 || negb robotics15 in                     (* line 103 *)
      let c' := if extra then withFailed c else c in                         (* lines 107-110, 137 *)
      let answer :=
        if extra then
          match bothSemantics (nonStrict c) with
          | None => None
          | Some (cl, ro) => Some (Some (cl && negb classical15, ro && negb robotics15))  (* lines 124-133 *)
          end
        else Some None in
      match answer, (if fst (nth 10 rows (false, false)) then sysFalsify c' else envFalsify c') with
      | Some a, Some f => Some (mkInteraction rows a f)
      | _, _ => None
      end
  end.
