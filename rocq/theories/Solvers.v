(** * Variants of the fixed-point computation

    Model of XFixedPointRecycling::computeWinningPositions
    (/repo/src/extensionFixedPointRecycling.hpp) and of
    XBiasForAction::computeWinningPositions (/repo/src/extensionBiasForAction.hpp).
    Both override GR1Context::computeWinningPositions; checkRealizability and the
    strategy extraction plugins are used with all three. *)

From Coq Require Import Arith List Bool.
From Verif Require Import BDD Loop VarTypes Synth.
Import ListNotations.

(** ** Recycling of fixed points *)

(** recyclingInnermostFixedPoints, extensionFixedPointRecycling.hpp:42-47.  The
    vector of vectors is a function; [None] is the null function of a
    default-constructed BF, on which operator& is undefined. *)
Definition matrix : Type := nat -> nat -> option BF.
Definition matrixSet (m : matrix) (j i : nat) (f : BF) : matrix :=
  fun j' i' => if Nat.eqb j' j && Nat.eqb i' i then Some f else m j' i'.

(** The value that nu0 starts with, line 91. *)
Definition recycledStart (firstMiddle firstOutermost : bool) (m : matrix) (j i : nat) (nu2 : BF) : option BF :=
  if firstMiddle && negb firstOutermost then
    match m j i with Some r => Some (band r nu2) | None => None end
  else Some nu2.

(** Loop over the liveness assumptions, lines 84-110. *)
Fixpoint asmLoopR (c : ctx) (firstMiddle firstOutermost : bool) (nu2 : BF) (j : nat) (live : BF)
    (i : nat) (asms : list BF) (good : BF) (m : matrix) (data : list (nat * BF)) :
    option (BF * (matrix * list (nat * BF))) :=
  match asms with
  | [] => Some (good, (m, data))
  | a :: asms =>
      match recycledStart firstMiddle firstOutermost m j i nu2 with
      | None => None
      | Some start =>
          match run (nu0Body c live a) (fpFuel c) (start, btrue) with
          | None => None
          | Some (nu0, paths) =>
              asmLoopR c firstMiddle firstOutermost nu2 j live (S i) asms (bor good nu0)
                (matrixSet m j i nu0) (data ++ [(j, paths)])
          end
      end
  end.

(** Middle least fixed point, lines 72-116; the loop state is
    (mu1, (livetransitions, (firstMiddle, (recyclingInnermostFixedPoints, strategyDumpingData)))). *)
Notation midState := (BF * (BF * (bool * (matrix * list (nat * BF)))))%type.
Definition mu1BodyR (c : ctx) (firstOutermost : bool) (nu2 : BF) (j : nat) (st : midState) :
    step midState midState :=
  let '(mu1, (live, (firstMiddle, (m, data)))) := st in
  let live := bor live (swapPrePost c mu1) in
  match asmLoopR c firstMiddle firstOutermost nu2 j live 0 (livenessAssumptions c) mu1 m data with
  | None => Abort
  | Some (good, (m, data)) => fpUpdate mu1 good (live, (false, (m, data)))
  end.

(** Loop over the liveness guarantees, lines 64-120. *)
Fixpoint goalLoopR (c : ctx) (firstOutermost : bool) (nu2 : BF) (j : nat) (goals : list BF)
    (next : BF) (m : matrix) (data : list (nat * BF)) : option (BF * (matrix * list (nat * BF))) :=
  match goals with
  | [] => Some (next, (m, data))
  | g :: goals =>
      match run (mu1BodyR c firstOutermost nu2 j) (fpFuel c)
              (bfalse, (band g (swapPrePost c nu2), (true, (m, data)))) with
      | None => None
      | Some (mu1, (_, (_, (m, data)))) => goalLoopR c firstOutermost nu2 (S j) goals (band next mu1) m data
      end
  end.

(** Outer greatest fixed point, lines 37-130; the loop state is
    (nu2, (firstOutermost, (recyclingInnermostFixedPoints, strategyDumpingData))). *)
Notation outState := (BF * (bool * (matrix * list (nat * BF))))%type.
Definition nu2BodyR (c : ctx) (st : outState) : step outState outState :=
  let '(nu2, (firstOutermost, (m, _))) := st in
  match goalLoopR c firstOutermost nu2 0 (livenessGuarantees c) btrue m [] with
  | None => Abort
  | Some (next, (m, data)) => fpUpdate nu2 next (false, (m, data))
  end.
Definition computeRecycling (c : ctx) : option (BF * list (nat * BF)) :=
  match run (nu2BodyR c) (fpFuel c) (btrue, (true, (fun _ _ => None, []))) with
  | Some (w, (_, (_, data))) => Some (w, data)
  | None => None
  end.

(** ** Bias for action *)

(** The additional least fixed point, extensionBiasForAction.hpp:55-61; the loop
    state is (mu1b, strategyDumpingData). *)
Definition biasBody (c : ctx) (j : nat) (live : BF) (st : BF * list (nat * BF)) :
    step (BF * list (nat * BF)) (BF * list (nat * BF)) :=
  let '(mu1b, data) := st in
  let paths := band (bor live (swapPrePost c mu1b)) (safetySys c) in
  fpUpdate mu1b (cox c paths) (data ++ [(j, paths)]).

(** Middle least fixed point, lines 49-84. *)
Definition mu1BodyB (c : ctx) (j : nat) (st : BF * (BF * list (nat * BF))) :
    step (BF * (BF * list (nat * BF))) (BF * (BF * list (nat * BF))) :=
  let '(mu1, (live, data)) := st in
  let live := bor live (swapPrePost c mu1) in
  match run (biasBody c j live) (fpFuel c) (mu1, data) with
  | None => Abort
  | Some (mu1b, data) =>
      match asmLoop c j live (livenessAssumptions c) mu1b data with
      | None => Abort
      | Some (good, data) => fpUpdate mu1 good (live, data)
      end
  end.

(** Loop over the liveness guarantees, lines 45-87. *)
Fixpoint goalLoopB (c : ctx) (nu2 : BF) (j : nat) (goals : list BF)
    (next : BF) (data : list (nat * BF)) : option (BF * list (nat * BF)) :=
  match goals with
  | [] => Some (next, data)
  | g :: goals =>
      match run (mu1BodyB c j) (fpFuel c) (bfalse, (band g (swapPrePost c nu2), data)) with
      | None => None
      | Some (mu1, (_, data)) => goalLoopB c nu2 (S j) goals (band next mu1) data
      end
  end.

(** Outer greatest fixed point, lines 39-93. *)
Definition nu2BodyB (c : ctx) (st : BF * list (nat * BF)) :
    step (BF * list (nat * BF)) (BF * list (nat * BF)) :=
  match goalLoopB c (fst st) 0 (livenessGuarantees c) btrue [] with
  | None => Abort
  | Some (next, data) => fpUpdate (fst st) next data
  end.
Definition computeBias (c : ctx) : option (BF * list (nat * BF)) :=
  run (nu2BodyB c) (fpFuel c) (btrue, []).

(** ** The choice of the computation *)

(** Which class of the template parameter T provides computeWinningPositions
    (/repo/src/main.cpp:112-247): none of the options --fixedPointRecycling and
    --biasForAction, or one of them. *)
Inductive algorithm : Type := Basic | Recycling | Bias.
Definition solve (a : algorithm) (c : ctx) : option (BF * list (nat * BF)) :=
  match a with
  | Basic => computeWinningPositions c
  | Recycling => computeRecycling c
  | Bias => computeBias c
  end.

(** checkRealizability with one of these computations,
    /repo/src/synthesisAlgorithm.cpp:94-110 and
    /repo/src/extensionRoboticsSemantics.hpp:26-45. *)
Definition verdictWith (a : algorithm) (robotics : bool) (c : ctx) : verdict :=
  match solve a c with
  | None => NoTermination
  | Some (w, _) => verdictOf (if robotics then initialCheckRobotics c w else initialCheck c w)
  end.
