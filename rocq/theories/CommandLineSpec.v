(** * Specification vocabulary for the command line *)

From Coq Require Import String Ascii Arith List Bool.
From Verif Require Import CommandLine.
Import ListNotations.
Local Open Scope string_scope.
Local Open Scope list_scope.

(** An option is an argument whose first character is a minus sign. *)
Definition isOption (a : string) : Prop := exists s, a = String "-" s.
(** The options and the file names among the arguments. *)
Definition given (o : string) (args : list string) : Prop := isOption o /\ In o args.
Fixpoint fileNames (args : list string) : list string :=
  match args with
  | [] => []
  | String "-" _ :: args => fileNames args
  | a :: args => a :: fileNames args
  end.
Definition allKnown (args : list string) : Prop := forall o, given o args -> In o commandLineArguments.

(** The list of permitted combinations contains an entry (for plugin p) that lists
    exactly the given options (in some order). *)
Definition listed (args : list string) (p : plugin) : Prop :=
  exists ws, (forall o, In o ws <-> given o args) /\ In (String.concat " " ws, p) optionCombinations.

(** The options that ask for the features of a plugin. *)
Definition opt (b : bool) (o : string) : list string := if b then [o] else [].
Fixpoint features (p : plugin) : list string :=
  match p with
  | PBase => []
  | PRobotics t => "--sysInitRoboticsSemantics" :: features t
  | PFastSlow t => "--IROSfastslow" :: features t
  | PBias t => "--biasForAction" :: features t
  | PRecycling t => "--fixedPointRecycling" :: features t
  | PCooperative t => "--cooperativeGR1Strategy" :: features t
  | PTwoDim t robotics recovery =>
      "--twoDimensionalCost" :: opt robotics "--sysInitRoboticsSemantics" ++ opt recovery "--simpleRecovery" ++ features t
  | PExplicit t recovery json =>
      "--explicitStrategy" :: opt recovery "--simpleRecovery" ++ opt json "--jsonOutput" ++ features t
  | PPermissive t recovery => "--extractExplicitPermissiveStrategy" :: opt recovery "--simpleRecovery" ++ features t
  | PSymbolic t recovery encoded =>
      (if encoded then "--simpleSymbolicStrategy" else "--symbolicStrategy") :: opt recovery "--simpleRecovery" ++ features t
  | PInteractive t => "--interactiveStrategy" :: features t
  | PMotion t robotics => "--nonDeterministicMotion" :: opt robotics "--sysInitRoboticsSemantics" ++ features t
  | PCounter t robotics => opt robotics "--sysInitRoboticsSemantics" ++ features t
  | PExplicitCounter t => "--counterStrategy" :: features t
  | PAssumptions t => "--analyzeAssumptions" :: features t
  | PInitial t restrict => "--analyzeInitialPositions" :: opt restrict "--restrictToReachableStates" ++ features t
  | PInterleave t => "--analyzeInterleaving" :: features t
  | PInteraction t => "--analyzeSafetyLivenessInteraction" :: features t
  | PTrace t => "--computeAbstractWinningTrace" :: features t
  | PCNF t => "--computeCNFFormOfTheSpecification" :: features t
  | PEstimator t => "--computeIncompleteInformationEstimator" :: features t
  | PRun t => "--computeInterestingRunOfTheSystem" :: features t
  | PWeaken t => "--computeWeakenedSafetyAssumptions" :: features t
  end.

(** The file names that the options ask for, in terms of the options: one or two input
    files, followed by the file name for the strategy. *)
Definition has (args : list string) (o : string) : bool := existsb (String.eqb o) args.
Definition inputs (args : list string) : nat :=
  if has args "--twoDimensionalCost" || has args "--nonDeterministicMotion" then 2 else 1.
Definition maxOutputs (args : list string) : nat :=
  if has args "--symbolicStrategy" || has args "--simpleSymbolicStrategy" || has args "--explicitStrategy"
     || has args "--extractExplicitPermissiveStrategy" then 1 else 0.
Definition minOutputs (args : list string) : nat :=
  if has args "--symbolicStrategy" || has args "--simpleSymbolicStrategy" then 1 else 0.
